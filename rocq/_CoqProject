-Q theories Verif
theories/Base.v
theories/Script.v
theories/SortProofs.v
theories/ScriptParser.v
theories/ScriptGrammar.v
theories/ScriptGrammarProofs.v
theories/ScriptWf.v
theories/ScriptStrProofs.v
theories/ScriptOrderProofs.v
theories/ScriptSpec.v
theories/ScriptCtorProofs.v
theories/ScriptParseProofs.v
theories/ScriptSeqProofs.v
theories/ScriptMoreProofs.v
theories/ScriptAlgProofs.v
theories/ScriptEqProofs.v
theories/ScriptErrProofs.v
theories/Properties1.v
theories/Commons.v
theories/CommonsProofs.v
theories/Properties2.v
theories/Database.v
theories/DatabasePath.v
theories/DatabaseSpec.v
theories/DatabaseProofs.v
theories/DatabaseRefine.v
theories/DatabasePathProofs.v
theories/Properties3.v
theories/Git.v
theories/GitProofs.v
theories/Properties4.v
theories/Cache.v
theories/CacheProofs.v
theories/Properties5.v
theories/Pull.v
theories/Transactions.v
theories/TransactionsProofs.v
theories/Properties6.v
theories/Properties7.v
theories/Usl.v
theories/OrderTheory.v
theories/UslProofs.v
theories/UslSpec.v
theories/UslSsProofs.v
theories/Properties8.v
theories/Sfun.v
theories/SfunProofs.v
theories/SfunListProofs.v
theories/SfunWordProofs.v
theories/SfunSpec.v
theories/Properties9.v
theories/UslParser.v
theories/UslParserProofs.v
theories/UslRoundProofs.v
theories/UslGrammar.v
theories/UslGrammarProofs.v
theories/Properties10.v
theories/Path.v
theories/PathLexProofs.v
theories/PathSpec.v
theories/PathProofs.v
theories/PathAlgProofs.v
theories/PathTextProofs.v
theories/PathDerefProofs.v
theories/Properties11.v
theories/PathBuildProofs.v
theories/RebuildSpec.v
theories/Properties12.v
theories/Instance.v
theories/InstanceSpec.v
theories/InstanceProofs.v
theories/Properties13.v
theories/Tables.v
theories/TablesSpec.v
theories/TablesProofs.v
theories/TablesGridProofs.v
theories/TablesAllProofs.v
theories/Properties14.v
theories/Factor.v
theories/FactorBoxProofs.v
theories/FactorProofs.v
theories/FactorAllProofs.v
theories/FactorSpec.v
theories/FactorTotalProofs.v
theories/FactorTopProofs.v
theories/Properties15.v
theories/Dictionary.v
theories/DictionarySpec.v
theories/DictTableProofs.v
theories/DictLoadProofs.v
theories/DictRelProofs.v
theories/DictSibProofs.v
theories/DictTopProofs.v
theories/DictAcceptProofs.v
theories/DictParentProofs.v
theories/DictDetProofs.v
theories/DictBuildProofs.v
theories/Properties16.v
theories/Properties17.v
theories/Properties18.v
theories/Properties19.v
theories/UslTable.v
theories/UslTableProofs.v
theories/UslTableSpec.v
theories/UslTableOrderProofs.v
theories/UslTableSsProofs.v
theories/Properties20.v
theories/Paradigms.v
theories/ParadigmsSpec.v
theories/ParadigmsProofs.v
theories/ParadigmsDictProofs.v
theories/ParadigmsStepProofs.v
theories/ParadigmsUpdateProofs.v
theories/Properties21.v
theories/Properties22.v
theories/Check.v
theories/CheckSpec.v
theories/CheckProofs.v
theories/Properties23.v
theories/Listing.v
theories/ListingSpec.v
theories/ListingProofs.v
theories/Properties24.v
theories/UslOrder.v
theories/UslOrderSpec.v
theories/UslOrderProofs.v
theories/Schedule.v
theories/ScheduleSpec.v
theories/ScheduleProofs.v
theories/Properties25.v
theories/Properties26.v
theories/Member.v
theories/MemberSpec.v
theories/MemberProofs.v
theories/Properties27.v
theories/Query.v
theories/QuerySpec.v
theories/QueryProofs.v
theories/Properties28.v
theories/ContentProofs.v
theories/RestrictProofs.v
theories/Properties29.v
theories/Partitions.v
theories/PartitionsSpec.v
theories/PartitionsProofs.v
theories/Properties30.v
theories/Simplify.v
theories/SimplifySpec.v
theories/SimplifyProofs.v
theories/Properties31.v
theories/Diff.v
theories/DiffSpec.v
theories/DiffProofs.v
theories/Properties32.v
theories/LexBuildProofs.v
theories/LexTableProofs.v
theories/LexTableSpec.v
theories/LexTableSsProofs.v
theories/Properties33.v
theories/Properties34.v
theories/WordBuildProofs.v
theories/LexPartProofs.v
theories/WordTableProofs.v
theories/WordTableSpec.v
theories/WordTableSsProofs.v
theories/Properties35.v
theories/Properties36.v
theories/WordTableExactProofs.v
theories/Properties37.v
theories/AssocProofs.v
theories/Properties38.v
theories/Properties39.v
theories/Migrate.v
theories/MigrateSpec.v
theories/MigrateProofs.v
theories/Properties40.v
theories/Rewrite.v
theories/RewriteSpec.v
theories/RewriteProofs.v
theories/Properties41.v
theories/Properties42.v
theories/FilesList.v
theories/FilesListSpec.v
theories/FilesListProofs.v
theories/Properties43.v
theories/Properties44.v

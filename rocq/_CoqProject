-Q theories Verif
theories/Base.v
theories/NamesModel.v
theories/NamesProofs.v
theories/NamesProps.v
theories/MemModel.v
theories/MemProofs.v
theories/MemProps.v
theories/TextModel.v
theories/TextProofs.v
theories/TextProps.v
theories/DataModel.v
theories/DataProofs.v
theories/RmProofs.v
theories/StackProofs.v
theories/DataProps.v
theories/StackProps.v
theories/SplitProps.v
theories/MissingProps.v
theories/AccessProps.v
theories/PackModel.v
theories/PackProps.v
theories/SortModel.v
theories/SortProofs.v
theories/SortProps.v
theories/MapModel.v
theories/MapProofs.v
theories/MapProps.v
theories/PmfModel.v
theories/PmfProofs.v
theories/PmfProps.v
theories/PmfDrawProps.v
theories/RegModel.v
theories/RegProofs.v
theories/RegProps.v
theories/ParseModel.v
theories/ParseSpec.v
theories/ParseProofs.v
theories/ParseProps.v
theories/StatsModel.v
theories/StatsSpec.v
theories/StatsProofs.v
theories/DistProofs.v
theories/NormProofs.v
theories/StatsMatProofs.v
theories/StatsProps.v
theories/DistProps.v
theories/UnbiasedProps.v
theories/SummProps.v
theories/ConvModel.v
theories/ConvProofs.v
theories/ConvProps.v
theories/FillProps.v
theories/LinModel.v
theories/LinProps.v
theories/ResampModel.v
theories/ResampProps.v
theories/McmcModel.v
theories/McmcProps.v
theories/LikeModel.v
theories/LikeProps.v
theories/ScoreProps.v
theories/MleProps.v
theories/AsstModel.v
theories/AsstProps.v
theories/RegexProps.v
theories/HistModel.v
theories/HistProps.v
theories/SmirnovProps.v
theories/TransModel.v
theories/FixProps.v
theories/TransProps.v
theories/CrossProps.v
theories/FactModel.v
theories/FactProofs.v
theories/FactProps.v
theories/DbModel.v
theories/AggProps.v
theories/DbSpec.v
theories/DbProofs.v
theories/QueryProps.v
theories/MixedProps.v
theories/DbProps.v
theories/RakeModel.v
theories/RakeSpec.v
theories/RakeProofs.v
theories/RakeProps.v
theories/RakeOptProps.v
theories/OlsModel.v
theories/OlsSpec.v
theories/OlsProofs.v
theories/OlsProps.v
theories/OlsLikeProps.v
theories/OlsIvProps.v
theories/TestModel.v
theories/TestSpec.v
theories/TestProps.v
theories/TestTableProps.v
theories/TestFProps.v
theories/TestLookupProps.v
theories/ConsModel.v
theories/ConsSpec.v
theories/ConsProps.v
theories/CdfModel.v
theories/CdfSpec.v
theories/CdfProps.v
theories/LogitModel.v
theories/LogitSpec.v
theories/LogitProps.v
theories/ProbitProps.v
theories/DispModel.v
theories/DispProps.v
theories/SearchModel.v
theories/SearchSpec.v
theories/SearchProps.v
theories/SearchLikeProps.v
theories/RestartModel.v
theories/RestartProps.v
theories/DiffModel.v
theories/DiffProps.v
theories/HessProps.v
theories/AnnealModel.v
theories/AnnealProps.v
theories/CycleModel.v
theories/CycleProps.v
theories/MixModel.v
theories/MixProps.v
theories/MixDrawProps.v
theories/KlModel.v
theories/KlProps.v
theories/KdeModel.v
theories/KdeProps.v
theories/KdeShareProps.v
theories/MultiModel.v
theories/MultiProps.v
theories/MultiEstProps.v
theories/MultiDrawProps.v
theories/TextDbModel.v
theories/TextDbProps.v
theories/TabExistsProps.v
theories/OutModel.v
theories/OutSpec.v
theories/OutProofs.v
theories/OutProps.v
theories/OutPageModel.v
theories/OutPageProps.v
theories/ImputeModel.v
theories/ImputeProps.v
theories/ArmsModel.v
theories/ArmsSpec.v
theories/ArmsProofs.v
theories/ArmsProofs2.v
theories/ArmsProofs3.v
theories/ArmsProofs4.v
theories/ArmsProofs5.v
theories/ArmsProps.v
theories/RankModel.v
theories/RankProofs.v
theories/RankProofs2.v
theories/RankProps.v
theories/CtModel.v
theories/CtProps.v
theories/DirModel.v
theories/DirProps.v
theories/MvnModel.v
theories/MvnProps.v
theories/TModel.v
theories/TProps.v
theories/PcaModel.v
theories/PcaProps.v
theories/ArmsDrawProps.v
theories/ImputeShellProps.v
theories/PmodModel.v
theories/PmodProps.v
theories/NormModel.v
theories/NormProps.v
theories/GamModel.v
theories/GamProps.v
theories/PsdModel.v
theories/PsdProps.v
theories/MvgModel.v
theories/MvgProps.v
theories/GaussProofs.v
theories/EntModel.v
theories/EntProps.v
theories/NormMeanProps.v
theories/MassProps.v

-Q theories Verif
theories/Text.v
theories/TextFacts.v
theories/LineEndingModel.v
theories/LineEndingSpec.v
theories/LineEndingProofs.v
theories/LineEndingProps.v
theories/BinSearchModel.v
theories/BinSearchProofs.v
theories/SettingsModel.v
theories/SettingsSpec.v
theories/SettingsProofs.v
theories/SettingsProps.v
theories/ResolverModel.v
theories/ResolverSpec.v
theories/ResolverProofs.v
theories/ResolverProps.v
theories/DiscoverModel.v
theories/DiscoverSpec.v
theories/DiscoverProofs.v
theories/DiscoverProps.v
theories/WalkModel.v
theories/WalkSpec.v
theories/WalkProofs.v
theories/CliModel.v
theories/CliSpec.v
theories/CliProofs.v
theories/WalkProps.v
theories/CliProps.v
theories/LineIndexModel.v
theories/LineIndexSpec.v
theories/LineIndexProofs.v
theories/LineIndexProps.v
theories/DocsModel.v
theories/DocsSpec.v
theories/DocsProofs.v
theories/DocsProps.v
theories/TextEditModel.v
theories/TextEditSpec.v
theories/TextEditProofs.v
theories/TextEditProps.v
theories/ProtoEditsModel.v
theories/ProtoEditsSpec.v
theories/ProtoEditsProofs.v
theories/ProtoEditsProps.v
theories/DirectiveModel.v
theories/DirectiveSpec.v
theories/DirectiveProofs.v
theories/DirectiveProps.v
theories/WorkspaceModel.v
theories/WorkspaceSpec.v
theories/WorkspaceProofs.v
theories/WorkspaceProps.v
theories/ServerModel.v
theories/ServerSpec.v
theories/ServerProofs.v
theories/ServerProps.v
theories/SyntaxKind.v
theories/ParseModel.v
theories/ParseSpec.v
theories/ParseProofs.v
theories/ParseTree.v
theories/ParseProps.v
theories/RangeModel.v
theories/RangeSpec.v
theories/RangeProofs.v
theories/RangeProps.v
theories/FmtTree.v
theories/IrModel.v
theories/TableModel.v
theories/FmtModel.v
theories/FmtSpec.v
theories/FmtProofs.v
theories/FmtRunProofs.v
theories/FmtListProofs.v
theories/FmtTidyProofs.v
theories/FmtRootProofs.v
theories/FmtTidyInd.v
theories/FmtFactProofs.v
theories/FmtLayout.v
theories/FmtProps.v
theories/FmtPathSpec.v
theories/FmtPathProofs.v
theories/FmtSkipProofs.v
theories/FmtSkipProps.v
theories/FmtEdgeProofs.v
theories/FmtBlankProofs.v
theories/FmtBlankProps.v
theories/FmtMarkProofs.v
theories/FmtOffProofs.v
theories/FmtMarkProps.v
theories/FmtTableSpec.v
theories/FmtTableProofs.v
theories/FmtRowProofs.v
theories/FmtGridProofs.v
theories/FmtCellProofs.v
theories/FmtTableProps.v
theories/RReadSpec.v
theories/FmtLineSpec.v
theories/FmtLineRunProofs.v
theories/FmtLineListProofs.v
theories/FmtLineProofs.v
theories/FmtLineFactProofs.v
theories/FmtLineProps.v
theories/GrammarSpec.v
theories/GrammarProofs.v
theories/GrammarTidyProofs.v
theories/GrammarProps.v
theories/GrammarSoundProofs.v
theories/GrammarMapProofs.v
theories/CommentsModel.v
theories/CommentsSpec.v
theories/CommentsProofs.v
theories/AstModel.v
theories/AstReads.v
theories/AstProofs.v
theories/FrontProofs.v
theories/FrontProps.v
theories/TotalSpec.v
theories/TotalProofs.v
theories/TotalProps.v
theories/FactoryModel.v
theories/FactorySpec.v
theories/FactoryProofs.v
theories/FactoryTyped.v
theories/FactoryProps.v
theories/LexSpec.v
theories/LexProofs.v
theories/LexRunProofs.v
theories/LexSealProofs.v
theories/LexTreeProofs.v
theories/LexProps.v
theories/LexSourceSpec.v
theories/LexAlignProofs.v
theories/LexSourceProofs.v
theories/LexSourceProps.v
theories/RTextSpec.v
theories/RReadProofs.v
theories/RNestProofs.v
theories/RRunProofs.v
theories/RTreeProofs.v
theories/RWideProofs.v
theories/RTextProps.v
theories/RSoundProofs.v
theories/RProgramSpec.v
theories/RProgramProofs.v
theories/RSliceProofs.v
theories/RTailProofs.v
theories/RNormProofs.v
theories/RCutProofs.v
theories/RFitProofs.v
theories/RKeptProofs.v
theories/RProgramProps.v
theories/SourceSpec.v
theories/SourceProofs.v
theories/SourceCommentProofs.v
theories/SourceNodeProofs.v
theories/AroundProofs.v
theories/PlaceSpec.v
theories/PlaceProofs.v
theories/PlaceSourceProofs.v
theories/SourceProps.v
theories/DressSpec.v
theories/DressProofs.v
theories/PlaceDressProofs.v
theories/PlaceProps.v
theories/BodySpec.v
theories/BodyProofs.v
theories/BodyDressProofs.v
theories/BodyProps.v
theories/BesideSpec.v
theories/BesideProofs.v
theories/BesideCoverProofs.v
theories/BesideProps.v
theories/StillProofs.v
theories/ShownSpec.v
theories/ShownProofs.v
theories/ShownSourceProofs.v
theories/ShownCoverProofs.v
theories/ShownProps.v
theories/PreorderModel.v
theories/PreorderSpec.v
theories/PreorderProofs.v
theories/NamesSpec.v
theories/NamesProofs.v
theories/PreorderProps.v
theories/TwiceSpec.v
theories/TwiceProofs.v
theories/TwiceProps.v
theories/PortableSpec.v
theories/PortableProofs.v
theories/PortableSourceProofs.v
theories/PortableProps.v

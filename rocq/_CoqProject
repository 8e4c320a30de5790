-Q theories Verif
theories/Base.v
theories/BaseProofs.v
theories/TokModel.v
theories/TokSpec.v
theories/TokProofs.v
theories/PropTok.v
theories/LexModel.v
theories/LexSpec.v
theories/EscapeProofs.v
theories/LexProofs.v
theories/PropLex.v
theories/ParseModel.v
theories/ParseSpec.v
theories/ParseProofs.v
theories/EmitProofs.v
theories/RunProofs.v
theories/DupProofs.v
theories/PathSpec.v
theories/PathProofs.v
theories/PropParse.v
theories/PropPath.v
theories/TreeModel.v
theories/TreeSpec.v
theories/TreeProofs.v
theories/BuildProofs.v
theories/LinkProofs.v
theories/PropTree.v
theories/FmtModel.v
theories/FmtSpec.v
theories/LexRunProofs.v
theories/ScalarProofs.v
theories/PropFmt.v
theories/EmbedModel.v
theories/EmbedSpec.v
theories/EmbedProofs.v
theories/PropEmbed.v
theories/LspModel.v
theories/LspSpec.v
theories/LspProofs.v
theories/PropLsp.v
theories/FsModel.v
theories/FsSpec.v
theories/FsProofs.v
theories/PropFs.v
theories/CliModel.v
theories/CliSpec.v
theories/CliProofs.v
theories/PropCli.v
theories/SchemaModel.v
theories/SchemaSpec.v
theories/SchemaProofs.v
theories/CompatSpec.v
theories/CompatProofs.v
theories/PropSchema.v
theories/CstModel.v
theories/CstSpec.v
theories/CstProofs.v
theories/PropCst.v
theories/CstFmtModel.v
theories/RetokProofs.v
theories/CstShapeProofs.v
theories/CstFmtSpec.v
theories/CstFmtProofs.v
theories/PropCstFmt.v
theories/HiModel.v
theories/HiSpec.v
theories/HiProofs.v
theories/PropHi.v
theories/GrammarSpec.v
theories/GrammarProofs.v
theories/GrammarRunProofs.v
theories/GrammarSoundProofs.v
theories/GrammarTreeProofs.v
theories/PropGrammar.v
theories/RelexProofs.v
theories/WriteSpec.v
theories/RoundProofs.v
theories/WriteProofs.v
theories/PropWrite.v
theories/SerdeModel.v
theories/SerdeSpec.v
theories/SerdeText.v
theories/SerdeTokens.v
theories/SerdeProofs.v
theories/SerdeTotal.v
theories/PropSerde.v
theories/WarnModel.v
theories/WarnSpec.v
theories/WarnProofs.v
theories/PropWarn.v
theories/AgreeSpec.v
theories/AgreeLex.v
theories/AgreeProofs.v
theories/AgreeSim.v
theories/AgreeUnique.v
theories/PropAgree.v
theories/FmtLexProofs.v
theories/FmtRowProofs.v
theories/FmtReadProofs.v
theories/FmtNodeProofs.v
theories/PropFmtTree.v
theories/FacetModel.v
theories/FacetSpec.v
theories/FacetProofs.v
theories/FacetDocProofs.v
theories/PropFacet.v
theories/IdemSpec.v
theories/IdemRows.v
theories/IdemProofs.v
theories/IdemShapes.v
theories/IdemAtoms.v
theories/IdemDoc.v
theories/PropIdem.v
theories/EditModel.v
theories/EditSpec.v
theories/EditLayProofs.v
theories/EditProofs.v
theories/EditDepthProofs.v
theories/EditShowProofs.v
theories/EditFillSpec.v
theories/EditFillProofs.v
theories/PropEdit.v
theories/FacetSerModel.v
theories/FacetSerSpec.v
theories/FacetSerReadProofs.v
theories/FacetSerWriteProofs.v
theories/ExprProofs.v
theories/PropFacetSer.v
theories/GoModel.v
theories/GoSpec.v
theories/GoProofs.v
theories/PropGo.v
theories/GoTextSpec.v
theories/PropGoText.v
theories/GenModel.v
theories/GenSpec.v
theories/GenProofs.v
theories/GenProofs2.v
theories/PropGen.v
theories/LookModel.v
theories/LookSpec.v
theories/LookProofs.v
theories/PropLook.v
theories/HoverModel.v
theories/HoverSpec.v
theories/HoverProofs.v
theories/PropHover.v
theories/ActModel.v
theories/ActSpec.v
theories/ActProofs.v
theories/PropAct.v
theories/WasmModel.v
theories/WasmSpec.v
theories/WasmProofs.v
theories/PropWasm.v
theories/FfiModel.v
theories/FfiSpec.v
theories/FfiProofs.v
theories/PropFfi.v
theories/PyModel.v
theories/PySpec.v
theories/PyProofs.v
theories/PyWriteProofs.v
theories/PyParseModel.v
theories/PyParseSpec.v
theories/PyParseProofs.v
theories/PropPy.v
theories/PyRoundSpec.v
theories/PyRoundProofs.v
theories/PropPyRound.v
theories/SexpModel.v
theories/SexpSpec.v
theories/SexpProofs.v
theories/PropSexp.v
theories/PyNeatSpec.v
theories/PyNeatProofs.v
theories/PropPyNeat.v
theories/PySexpModel.v
theories/PySexpSpec.v
theories/PySexpProofs.v
theories/PropPySexp.v
theories/JsSexpModel.v
theories/JsSexpSpec.v
theories/JsSexpProofs.v
theories/PropJsSexp.v
theories/ErrSexpModel.v
theories/ErrSexpProofs.v
theories/PropErrSexp.v

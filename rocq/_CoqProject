-Q theories Verif
theories/RbeModel.v
theories/RbeSpec.v
theories/RbeDeriv.v
theories/RbeInterval.v
theories/RbeOpen.v
theories/RbeFeasModel.v
theories/RbeFeas.v
theories/CardModel.v
theories/CardLemmas.v
theories/RbeFinal.v
theories/RbeProps.v
theories/PendingModel.v
theories/PendingSpec.v
theories/PendingLemmas.v
theories/PendingProps.v
theories/TableModel.v
theories/TableSpec.v
theories/TableLemmas.v
theories/TableProps.v
theories/StepModel.v
theories/StepSpec.v
theories/StepLemmas.v
theories/StepProps.v
theories/ClassModel.v
theories/ClassSpec.v
theories/ClassLemmas.v
theories/ClassFinal.v
theories/ClassProps.v
theories/GraphModel.v
theories/GraphSpec.v
theories/GraphLemmas.v
theories/GraphTopo.v
theories/GraphProps.v
theories/DepModel.v
theories/DepSpec.v
theories/DepLemmas.v
theories/DepProps.v
theories/ExtModel.v
theories/ExtSpec.v
theories/ExtLemmas.v
theories/ExtProps.v
theories/ProveModel.v
theories/ProveSpec.v
theories/ProveLemmas.v
theories/ProveTotal.v
theories/ProveSem.v
theories/ProveHist.v
theories/EngineModel.v
theories/EngineSpec.v
theories/EngineShape.v
theories/EngineLemmas.v
theories/EngineFinal.v
theories/EngineProps.v
theories/ShapeMapModel.v
theories/ShapeMapSpec.v
theories/ShapeMapLemmas.v
theories/ShapeMapProps.v
theories/PrefixModel.v
theories/PrefixSpec.v
theories/PrefixLemmas.v
theories/PrefixProps.v
theories/NumModel.v
theories/NumSpec.v
theories/NumLemmas.v
theories/NumProps.v
theories/LitModel.v
theories/LitSpec.v
theories/LitLemmas.v
theories/LitProps.v
theories/VsModel.v
theories/VsSpec.v
theories/VsLemmas.v
theories/VsProps.v
theories/NcModel.v
theories/NcSpec.v
theories/NcProps.v
theories/PathModel.v
theories/PathSpec.v
theories/PathLemmas.v
theories/PathProps.v
theories/DiagSpec.v
theories/DiagProps.v
theories/LevelModel.v
theories/LevelSpec.v
theories/LevelLemmas.v
theories/LevelProps.v
theories/ProgModel.v
theories/ProgLemmas.v
theories/ShaclModel.v
theories/ShaclSpec.v
theories/ShaclLemmas.v
theories/ShaclConf.v
theories/ShaclProps.v
theories/ReportModel.v
theories/ReportSpec.v
theories/ReportLemmas.v
theories/ReportWrite.v
theories/ReportProps.v
theories/PgsModel.v
theories/PgsSpec.v
theories/PgsLemmas.v
theories/PgsMain.v
theories/PgsProps.v
theories/PgModel.v
theories/PgSpec.v
theories/PgLemmas.v
theories/PgBuild.v
theories/PgMerge.v
theories/PgProps.v
theories/PgbModel.v
theories/PgbSpec.v
theories/PgbLemmas.v
theories/PgbProps.v
theories/CompModel.v
theories/CompSpec.v
theories/CompLemmas.v
theories/CompMeaning.v
theories/CompDecide.v
theories/CompSchema.v
theories/CompTyping.v
theories/CompFragment.v
theories/CompProps.v
theories/ImpModel.v
theories/ImpSpec.v
theories/ImpLemmas.v
theories/ImpProps.v
theories/ShcModel.v
theories/ShcSpec.v
theories/ShcLemmas.v
theories/ShcMeaning.v
theories/ShcProps.v
theories/TgtModel.v
theories/TgtSpec.v
theories/TgtLemmas.v
theories/TgtWhole.v
theories/TgtProps.v
theories/RdsModel.v
theories/RdsSpec.v
theories/RdsLemmas.v
theories/RdsWhole.v
theories/RdsProps.v
theories/XtdModel.v
theories/XtdSpec.v
theories/XtdPart.v
theories/XtdRes.v
theories/XtdSel.v
theories/XtdChk.v
theories/XtdMain.v
theories/XtdSingle.v
theories/XtdProps.v
theories/XeSpec.v
theories/XeLemmas.v
theories/XeFinal.v
theories/XeProps.v
theories/MatModel.v
theories/MatSpec.v
theories/MatLemmas.v
theories/MatFinal.v
theories/MatProps.v
theories/TapModel.v
theories/TapSpec.v
theories/TapLemmas.v
theories/TapFinal.v
theories/TapGen.v
theories/TapProps.v
theories/TxModel.v
theories/TxSpec.v
theories/TxLemmas.v
theories/TxFinal.v
theories/TxProps.v
theories/PsModel.v
theories/PsSpec.v
theories/PsLemmas.v
theories/PsFinal.v
theories/PsProps.v
theories/PpModel.v
theories/PpSpec.v
theories/PpCase.v
theories/PpLemmas.v
theories/PpFinal.v
theories/PpApart.v
theories/PpProps.v
theories/LexModel.v
theories/LexSpec.v
theories/LexCore.v
theories/LexLemmas.v
theories/LexNames.v
theories/LexPn.v
theories/LexLocal.v
theories/LexIri.v
theories/LexRest.v
theories/LexPrint.v
theories/LexProps.v
theories/SmModel.v
theories/SmSpec.v
theories/SmLemmas.v
theories/SmRead.v
theories/SmFull.v
theories/SmPrint.v
theories/SmProps.v
theories/SjModel.v
theories/SjSpec.v
theories/SjText.v
theories/SjLemmas.v
theories/SjNode.v
theories/SjTree.v
theories/SjAgain.v
theories/SjPanic.v
theories/SjProps.v
theories/ScvModel.v
theories/ScvSpec.v
theories/ScvLemmas.v
theories/ScvProps.v
theories/CoModel.v
theories/CoSpec.v
theories/CoLemmas.v
theories/CoProps.v
theories/SqModel.v
theories/SqSpec.v
theories/SqLemmas.v
theories/SqMeaning.v
theories/SqProps.v
theories/ShrModel.v
theories/ShrSpec.v
theories/ShrLemmas.v
theories/ShrProps.v
theories/GenModel.v
theories/GenSpec.v
theories/GenLemmas.v
theories/GenNames.v
theories/GenEntity.v
theories/GenGraph.v
theories/GenWhole.v
theories/GenProps.v
theories/TopoModel.v
theories/TopoSpec.v
theories/TopoLemmas.v
theories/TopoProps.v
theories/CmModel.v
theories/CmSpec.v
theories/CmLemmas.v
theories/CmGen.v
theories/CmProps.v
theories/GenAny.v
theories/ShgModel.v
theories/ShgSpec.v
theories/ShgLemmas.v
theories/ShgGraph.v
theories/ShgProps.v
theories/GuardModel.v
theories/GuardSpec.v
theories/GuardLemmas.v
theories/GuardProps.v
theories/SaModel.v
theories/SaSpec.v
theories/SaLemmas.v
theories/SaProps.v
theories/NbModel.v
theories/NbSpec.v
theories/NbLemmas.v
theories/NbData.v
theories/NbProps.v
theories/UmlModel.v
theories/UmlSpec.v
theories/UmlLemmas.v
theories/UmlSteps.v
theories/UmlProps.v
theories/InfoModel.v
theories/InfoSpec.v
theories/InfoLemmas.v
theories/InfoText.v
theories/InfoProps.v
theories/VgModel.v
theories/VgSpec.v
theories/VgLemmas.v
theories/VgProps.v
theories/LdModel.v
theories/LdSpec.v
theories/LdLemmas.v
theories/LdProps.v
theories/SvModel.v
theories/SvSpec.v
theories/SvLemmas.v
theories/SvProps.v
theories/DpModel.v
theories/DpSpec.v
theories/DpLemmas.v
theories/DpProps.v
theories/QtModel.v
theories/QtSpec.v
theories/QtLemmas.v
theories/QtProps.v
theories/RpModel.v
theories/RpSpec.v
theories/RpLemmas.v
theories/RpProps.v
theories/CsModel.v
theories/CsSpec.v
theories/CsProps.v
theories/McModel.v
theories/McSpec.v
theories/McLemmas.v
theories/McProps.v
theories/QiModel.v
theories/QiSpec.v
theories/QiLemmas.v
theories/QiProps.v
theories/QvModel.v
theories/QvSpec.v
theories/QvProps.v
theories/SzModel.v
theories/SzSpec.v
theories/SzProps.v

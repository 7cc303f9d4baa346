-Q theories Verif
theories/Res.v
theories/Str.v
theories/NumberModel.v
theories/FloatProofs.v
theories/NumberProofs.v
theories/NumberProps.v
theories/PrimModel.v
theories/PrimProofs.v
theories/PrimProps.v
theories/BodyModel.v
theories/BodyProofs.v
theories/MapModel.v
theories/MapProofs.v
theories/BodyProps.v
theories/Ast.v
theories/JsonModel.v
theories/JsonProofs.v
theories/JsonProps.v
theories/DedentModel.v
theories/DedentSpec.v
theories/DedentProofs.v
theories/DedentProps.v
theories/Utf8.v
theories/LocModel.v
theories/LocSpec.v
theories/LocProofs.v
theories/LocProps.v
theories/AstInd.v
theories/EvalModel.v
theories/EvalSpec.v
theories/EvalProofs.v
theories/EvalWf.v
theories/EvalIp.v
theories/EvalSem.v
theories/EvalProps.v
theories/BlameModel.v
theories/BlameSpec.v
theories/BlameProofs.v
theories/BlameNames.v
theories/BlameInPlace.v
theories/BlameProps.v
theories/EAst.v
theories/EAstInd.v
theories/Dec.v
theories/EncModel.v
theories/ParseBase.v
theories/ParseModel.v
theories/PrattSpec.v
theories/PrattProofs.v
theories/Grammar.v
theories/ParseLemmas.v
theories/ParseSound.v
theories/ParseSoundRec.v
theories/ParseTop.v
theories/ParseSpec.v
theories/ParseFacts.v
theories/ParseProps.v
theories/EqSpec.v
theories/EqProofs.v
theories/EqParse.v
theories/EqProps.v
theories/Eat.v
theories/StrSpec.v
theories/StrProofs.v
theories/EatLeaf.v
theories/EatExpr.v
theories/EatColl.v
theories/ReadProofs.v
theories/EatName.v
theories/ReadProps.v
theories/ConvModel.v
theories/ConvSpec.v
theories/ConvProofs.v
theories/ConvFromSpec.v
theories/ConvFrom.v
theories/ConvProps.v
theories/FmtModel.v
theories/FmtSpec.v
theories/FmtProofs.v
theories/FmtLayout.v
theories/FmtProps.v
theories/FmtReadSpec.v
theories/FmtQuote.v
theories/FmtReadProofs.v
theories/FmtBodyProofs.v
theories/FmtValueProofs.v
theories/FmtReadProps.v
theories/FmtTplSpec.v
theories/FmtTplProofs.v
theories/FmtTplProps.v
theories/VisitModel.v
theories/VisitSpec.v
theories/VisitProofs.v
theories/VisitMutProofs.v
theories/VisitProps.v
theories/DeModel.v
theories/CliModel.v
theories/CliSpec.v
theories/CliProofs.v
theories/CliProps.v
theories/SerModel.v
theories/SerSpec.v
theories/SerProofs.v
theories/SerText.v
theories/SerProps.v
theories/OpSpec.v
theories/OpProofs.v
theories/OpProps.v
theories/LossSpec.v
theories/LossBase.v
theories/LossProofs.v
theories/LossFacts.v
theories/LossProps.v
theories/SpanSpec.v
theories/SpanProofs.v
theories/SpanProps.v
theories/BackSpec.v
theories/BackEq.v
theories/BackLex.v
theories/SameSpec.v
theories/BackWear.v
theories/BackExpr.v
theories/BackColl.v
theories/BackSame.v
theories/BackProofs.v
theories/BackStr.v
theories/BackTpl.v
theories/BackAll.v
theories/BackPrint.v
theories/BackBodySpec.v
theories/BackBody.v
theories/BackDup.v
theories/BackProps.v
theories/AgainSpec.v
theories/AgainBase.v
theories/AgainProofs.v
theories/AgainBody.v
theories/AgainEdits.v
theories/AgainProps.v
theories/TyModel.v
theories/TySpec.v
theories/TyBase.v
theories/TyProofs.v
theories/TyExpr.v
theories/TyGroup.v
theories/TyBody.v
theories/TyLayout.v
theories/TyProps.v
theories/EditSpec.v
theories/EditProofs.v
theories/EditProps.v
theories/OwnModel.v
theories/OwnSpec.v
theories/OwnProofs.v
theories/OwnParse.v
theories/OwnJson.v
theories/OwnValue.v
theories/OwnProps.v
theories/IterModel.v
theories/IterSpec.v
theories/IterProofs.v
theories/IterProps.v
theories/ErrShowModel.v
theories/ErrShowSpec.v
theories/ErrShowProofs.v
theories/ErrShowProps.v
theories/MacroModel.v
theories/MacroSpec.v
theories/MacroProofs.v
theories/MacroProps.v
theories/MsgModel.v
theories/MsgSpec.v
theories/MsgProofs.v
theories/MsgProps.v
theories/SeqModel.v
theories/SeqSpec.v
theories/SeqProofs.v
theories/SeqProps.v
theories/BodyTextSpec.v
theories/BodyTextProps.v
theories/HostModel.v
theories/HostSpec.v
theories/HostProofs.v
theories/HostProps.v
theories/HostSer.v

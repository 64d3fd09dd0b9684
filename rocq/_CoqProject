-Q theories Verif
theories/Base.v
theories/HugeModel.v
theories/HugeSpec.v
theories/HugeProofs1.v
theories/HugeProofs2.v
theories/HugeProofs3.v
theories/HugeProofs4.v
theories/HugeProofs5.v
theories/HugeProofs6.v
theories/HugeProofs7.v
theories/HugeProofs8.v
theories/HugeHistory.v
theories/HugeProps.v
theories/AdapterModel.v
theories/AdapterProofs.v
theories/AdapterProps.v
theories/FactorizeModel.v
theories/Fermat.v
theories/FactorizeProofs1.v
theories/FactorizeProofs2.v
theories/FactorizeProofs3.v
theories/FactorizeProofs4.v
theories/FactorizeProps.v
theories/FactorizeSpec.v
theories/FactorizeProofs5.v
theories/FactorizeProofs6.v
theories/FactorizeEndProps.v
theories/RationalModel.v
theories/RationalSpec.v
theories/RationalProofs.v
theories/RationalProofs2.v
theories/RationalProps.v
theories/Valuation.v
theories/RealModel.v
theories/RealSpec.v
theories/RealProofs1.v
theories/RealProofs2.v
theories/RealProofs3.v
theories/RealProofs4.v
theories/RealProofs5.v
theories/RealProofs6.v
theories/RealProofs7.v
theories/RealProofs8.v
theories/RealProps.v
theories/PolyModel.v
theories/PolySpec.v
theories/PolyProofs1.v
theories/PolyProofs2.v
theories/PolyProofs3.v
theories/PolyProofs4.v
theories/PolyProofs5.v
theories/PolyProofs6.v
theories/PolyProps.v
theories/ExprModel.v
theories/ExprSpec.v
theories/ExprProofs1.v
theories/ParserModel.v
theories/ParserSpec.v
theories/ParserProofs1.v
theories/ParserProofs2.v
theories/ParserProofs3.v
theories/ParserProps.v
theories/TextSpec.v
theories/TextProofs1.v
theories/TextProofs2.v
theories/ExprProps.v
theories/DtoaTable.v
theories/DtoaModel.v
theories/DtoaSpec.v
theories/DtoaProofs1.v
theories/DtoaProofs2.v
theories/DtoaProofs3.v
theories/DtoaProofs4.v
theories/DtoaProofs5.v
theories/DtoaProps.v
theories/OwnModel.v
theories/OwnSpec.v
theories/OwnProofs1.v
theories/OwnProofs2.v
theories/OwnProofs3.v
theories/OwnProofs4.v
theories/OwnProofs5.v
theories/OwnProps.v
theories/CliModel.v
theories/ErrSpec.v
theories/ErrProofs1.v
theories/ErrProofs2.v
theories/ErrProofs3.v
theories/ErrProofs4.v
theories/ErrProps.v
theories/CliSpec.v
theories/CliProofs1.v
theories/CliProofs2.v
theories/CliProofs3.v
theories/CliProofs4.v
theories/CliProofs5.v
theories/CliProps.v
theories/PrintSpec.v
theories/PrintProofs1.v
theories/PrintProofs2.v
theories/PrintProofs3.v
theories/PrintProofs4.v
theories/PrintProofs5.v
theories/PrintProps.v
theories/DecModel.v
theories/DecSpec.v
theories/DecProofs1.v
theories/DecProofs2.v
theories/DecProofs3.v
theories/DecProofs4.v
theories/DecProofs5.v
theories/DecProofs6.v
theories/DecProofs7.v
theories/DecProps.v
theories/NumModel.v
theories/NumSpec.v
theories/NumProofs1.v
theories/NumProofs2.v
theories/NumProofs3.v
theories/NumProofs4.v
theories/NumProofs5.v
theories/NumProofs6.v
theories/NumProps.v
theories/NumProofs7.v
theories/ToRatProps.v
theories/RingSpec.v
theories/RingProofs1.v
theories/RingProofs2.v
theories/RingProofs3.v
theories/RingProofs4.v
theories/RingProofs5.v
theories/RingProofs6.v
theories/RingProofs7.v
theories/RingProofs8.v
theories/RingProofs9.v
theories/RingProofs10.v
theories/RingProofs11.v
theories/RingProps.v
theories/IdemProofs1.v
theories/IdemProofs2.v
theories/IdemProps.v
theories/RatfunSpec.v
theories/RatfunProofs1.v
theories/RatfunProofs2.v
theories/RatfunProofs3.v
theories/RatfunProofs4.v
theories/RatfunProofs5.v
theories/RatfunProofs6.v
theories/RatfunProps.v
theories/NamesSpec.v
theories/NamesProofs.v
theories/NamesProofs2.v
theories/NamesProps.v
theories/TexSpec.v
theories/TexProofs1.v
theories/TexProofs2.v
theories/TexProofs3.v
theories/TexProps.v
theories/HugeStepProps.v
theories/CliMsgProps.v
theories/DblModel.v
theories/DblSpec.v
theories/DblProofs1.v
theories/DblProofs2.v
theories/DblProps.v
theories/RealDefSpec.v
theories/RealDefProofs1.v
theories/RealDefProofs2.v
theories/RealDefProofs3.v
theories/RealDefProofs4.v
theories/RealDefProps.v
theories/FactorizeBaseSpec.v
theories/FactorizeBaseProps.v
theories/MsgModel.v
theories/MsgProps.v
theories/AliasModel.v
theories/AliasSpec.v
theories/AliasProofs1.v
theories/AliasProofs2.v
theories/AliasProofs3.v
theories/AliasProps.v
theories/SortSpec.v
theories/SortProofs.v
theories/SortProps.v
theories/ScanModel.v
theories/ScanSpec.v
theories/ScanProofs1.v
theories/ScanProofs2.v
theories/ScanProofs3.v
theories/ScanProps.v
theories/IterModel.v
theories/IterProofs.v
theories/IterProps.v
theories/RestModel.v
theories/RestSpec.v
theories/RestProofs.v
theories/RestProps.v
theories/HugePowProps.v
theories/LiftModel.v
theories/LiftSpec.v
theories/LiftProofs.v
theories/LiftProofs2.v
theories/LiftProps.v
theories/CliLiftModel.v
theories/CliLiftSpec.v
theories/CliLiftProofs.v
theories/CliLiftProofs2.v
theories/CliLiftProofs3.v
theories/CliLiftProps.v
theories/FibSpec.v
theories/FibProofs.v
theories/FibProps.v
theories/NegPowProofs.v
theories/NegPowProps.v
theories/StoldModel.v
theories/StoldSpec.v
theories/StoldProofs1.v
theories/StoldProofs2.v
theories/StoldProofs3.v
theories/StoldProps.v
theories/PowWrapProofs.v
theories/PowWrapProps.v

-Q theories Verif
theories/Base.v
theories/BitLemmas.v
theories/CoordModel.v
theories/CoordSpec.v
theories/CoordProofs.v
theories/CoordProofs2.v
theories/CoordProps.v
theories/DateModel.v
theories/DateSpec.v
theories/DateProofs.v
theories/DateProofs2.v
theories/DateProofs3.v
theories/DateProofs4.v
theories/DateProps.v
theories/VisModel.v
theories/VisSpec.v
theories/VisProofs.v
theories/VisProofs2.v
theories/VisProps.v
theories/Maps.v
theories/SheetModel.v
theories/SheetSpec.v
theories/SheetProofs.v
theories/InternModel.v
theories/InternProofs.v
theories/SheetProps.v
theories/BcastModel.v
theories/BcastProps.v
theories/WildModel.v
theories/WildSpec.v
theories/WildProofs.v
theories/LookupModel.v
theories/LookupSpec.v
theories/LookupProofs.v
theories/LookupProofs2.v
theories/LookupProofs3.v
theories/LookupProofs4.v
theories/LookupProps.v
theories/ConvModel.v
theories/ConvSpec.v
theories/ConvProofs.v
theories/ConvProofs2.v
theories/ConvProps.v
theories/GraphSpec.v
theories/TarjanModel.v
theories/TarjanProofs.v
theories/TarjanProofs2.v
theories/ListSort.v
theories/LiveGraphSpec.v
theories/LiveGraphModel.v
theories/LiveGraphProofs.v
theories/LiveGraphProps.v
theories/SchedModel.v
theories/SchedSpec.v
theories/SchedProofs.v
theories/SchedProofs2.v
theories/SchedProofs3.v
theories/SchedProofs4.v
theories/SchedProofs5.v
theories/SchedProps.v
theories/SccModel.v
theories/SccSpec.v
theories/SccProofs.v
theories/SccProofs2.v
theories/SccProofs3.v
theories/SccProps.v
theories/LeaseModel.v
theories/LeaseSpec.v
theories/LeaseProofs.v
theories/LeaseProofs2.v
theories/LeaseProps.v
theories/UndoModel.v
theories/UndoSpec.v
theories/UndoProofs.v
theories/UndoProofs2.v
theories/UndoProofs3.v
theories/UndoProofs4.v
theories/UndoProofs5.v
theories/UndoGroups.v
theories/UndoProps.v
theories/TxModel.v
theories/TxSpec.v
theories/TxProofs.v
theories/TxProps.v
theories/RefModel.v
theories/RefSpec.v
theories/RefProofs.v
theories/RefProofs2.v
theories/RefProofs3.v
theories/RefProofs4.v
theories/RefProofs5.v
theories/RefProps.v
theories/EdgeModel.v
theories/EdgeSpec.v
theories/EdgeProofs.v
theories/EdgeProofs2.v
theories/EdgeProofs3.v
theories/EdgeProofs4.v
theories/EdgeProps.v
theories/IntervalModel.v
theories/IntervalSpec.v
theories/IntervalProofs.v
theories/IntervalProofs2.v
theories/IntervalProofs3.v
theories/IntervalProofs4.v
theories/GridIndexModel.v
theories/GridIndexProofs.v
theories/IntervalProps.v
theories/StripeModel.v
theories/StripeSpec.v
theories/StripeProofs.v
theories/StripeProps.v
theories/DirtyModel.v
theories/DirtySpec.v
theories/DirtyProofs.v
theories/DirtyProofs2.v
theories/DirtyProps.v
theories/PkModel.v
theories/PkSpec.v
theories/PkProofs.v
theories/PkProofs2.v
theories/PkProofs3.v
theories/PkProofs4.v
theories/PkProps.v
theories/SpillModel.v
theories/SpillSpec.v
theories/SpillProofs.v
theories/SpillProofs2.v
theories/SpillProps.v
theories/LexModel.v
theories/LexSpec.v
theories/LexProofs.v
theories/PrattModel.v
theories/PrattSpec.v
theories/PrattProofs.v
theories/PrattProofs2.v
theories/RoundSpec.v
theories/RoundProofs.v
theories/RoundProofs2.v
theories/RoundProofs3.v
theories/FormulaProps.v
theories/RtModel.v
theories/RtSpec.v
theories/RtProofs.v
theories/RtProofs2.v
theories/RtProofs3.v
theories/RtProofs4.v
theories/RtProps.v
theories/OvModel.v
theories/OvSpec.v
theories/OvProofs.v
theories/OvProofs2.v
theories/OvProofs3.v
theories/OvProofs4.v
theories/OvProofs5.v
theories/OvProps.v
theories/AsModel.v
theories/AsSpec.v
theories/AsProofs.v
theories/AsProofs2.v
theories/AsProofs3.v
theories/AsProofs4.v
theories/AsProofs5.v
theories/AsProofs6.v
theories/AsProofs7.v
theories/AsProps.v
theories/GramSpec.v
theories/GramProofs.v
theories/WordSpec.v
theories/WordProofs.v
theories/GramProps.v
theories/FpModel.v
theories/FpSpec.v
theories/FpProofs.v
theories/FpProofs2.v
theories/FpProofs3.v
theories/FpProofs4.v
theories/FpProofs5.v
theories/FpProofs6.v
theories/FpProofs7.v
theories/FpProofs8.v
theories/FpProps.v
theories/SsModel.v
theories/SsSpec.v
theories/SsProofs.v
theories/SsProofs2.v
theories/SsProofs3.v
theories/SsProofs4.v
theories/SsProofs5.v
theories/SsProofs6.v
theories/SsProofs7.v
theories/SsProofs8.v
theories/SsProofs9.v
theories/SsProofs10.v
theories/SsProps.v
theories/TkModel.v
theories/TkSpec.v
theories/TkProofs1.v
theories/TkProofs2.v
theories/TkProofs3.v
theories/TkProofs4.v
theories/TkProofs5.v
theories/TkProofs6.v
theories/SvModel.v
theories/SvProofs.v
theories/TkProps.v
theories/ArModel.v
theories/ArSpec.v
theories/ArProofs1.v
theories/ArProofs2.v
theories/ArProofs3.v
theories/ArProofs4.v
theories/ArProps.v
theories/NuModel.v
theories/NuSpec.v
theories/NuProofs1.v
theories/NuProofs2.v
theories/NuProofs3.v
theories/NuProofs4.v
theories/NuProps.v
theories/CrModel.v
theories/CrSpec.v
theories/CrProofs1.v
theories/CrProofs2.v
theories/CrProofs3.v
theories/CrProps.v
theories/TkSpec2.v
theories/TkProofs7.v
theories/TkProps2.v
theories/TfModel.v
theories/TfSpec.v
theories/TfProofs1.v
theories/TfProofs2.v
theories/TfProofs3.v
theories/TfProofs4.v
theories/TfProofs5.v
theories/TfProps.v
theories/TfProps2.v
theories/AyModel.v
theories/AySpec.v
theories/AyProofs1.v
theories/AyProofs2.v
theories/AyProofs3.v
theories/AyProofs4.v
theories/AyProofs5.v
theories/AyProofs6.v
theories/AyProofs7.v
theories/AyProps.v
theories/EvModel.v
theories/EvSpec.v
theories/EvProofs1.v
theories/EvProofs2.v
theories/EvProofs3.v
theories/EvProofs4.v
theories/EvProofs5.v
theories/EvProofs6.v
theories/EvProps.v
theories/TfProps3.v
theories/EvProps2.v
theories/RcModel.v
theories/RcSpec.v
theories/RcProofs.v
theories/RcProofs2.v
theories/RcProofs3.v
theories/RcProofs4.v
theories/RcProofs5.v
theories/RcProps.v
theories/RfModel.v
theories/RfSpec.v
theories/RfProofs.v
theories/RfProofs2.v
theories/RfProps.v
theories/LgModel.v
theories/LgSpec.v
theories/LgProofs.v
theories/LgProofs2.v
theories/LgProps.v
theories/DbModel.v
theories/DbSpec.v
theories/DbProofs.v
theories/DbProofs2.v
theories/DbProps.v
theories/InModel.v
theories/InSpec.v
theories/InProps.v
theories/EvProps3.v
theories/OvProps2.v
theories/NuProps2.v
theories/SsProps2.v
theories/InProps2.v

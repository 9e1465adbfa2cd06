-Q theories Verif
theories/Base.v
theories/HeapModel.v
theories/HeapSpec.v
theories/HeapProof.v
theories/HeapProof2.v
theories/HeapProps.v
theories/Options.v
theories/FmmModel.v
theories/FmmGrid.v
theories/FmmProof.v
theories/FmmProof2.v
theories/FmmProof3.v
theories/FmmProof4.v
theories/FmmProof5.v
theories/FmmSpec.v
theories/LevelSetModel.v
theories/FmmProof6.v
theories/FmmProof7.v
theories/FmmProps.v
theories/Mat3.v
theories/GridModel.v
theories/GridSpec.v
theories/Paint.v
theories/GridProof.v
theories/GridProof2.v
theories/GridProps.v
theories/Sum.v
theories/PolyModel.v
theories/PolyProof.v
theories/PolyProps.v
theories/LegendreModel.v
theories/LegendreSpec.v
theories/LegendreProof.v
theories/LegendreProof2.v
theories/LegendreProof3.v
theories/LegendreProps.v
theories/WenoModel.v
theories/WenoSpec.v
theories/WenoProof.v
theories/WenoProof2.v
theories/WenoProof3.v
theories/WenoProof4.v
theories/WenoProps.v
theories/EqModel.v
theories/EqSpec.v
theories/EqProof.v
theories/EqProof2.v
theories/FvModel.v
theories/FvProof.v
theories/FvBody.v
theories/FvSpec.v
theories/FvProof2.v
theories/FvProps.v
theories/StepperModel.v
theories/AderModel.v
theories/ThreadProof.v
theories/StepperProof.v
theories/StepperProof2.v
theories/StepperProps.v
theories/DgModel.v
theories/DgSpec.v
theories/DgProof.v
theories/DgProof2.v
theories/DgProof3.v
theories/DgProps.v
theories/PhysModel.v
theories/PhysInst.v
theories/PhysSpec.v
theories/PhysProof.v
theories/PhysProof2.v
theories/PhysProof3.v
theories/PhysProof4.v
theories/RiemannModel.v
theories/RiemannProof.v
theories/RiemannProof2.v
theories/PhysProof5.v
theories/PhysProof6.v
theories/RiemannProof3.v
theories/PhysProps.v
theories/JacProps.v
theories/ThermProof.v
theories/ThermProof2.v
theories/ThermProof3.v
theories/ThermProof4.v
theories/ThermProps.v
theories/RiemannProps.v
theories/PhysProof7.v
theories/WaveProps.v
theories/UtilsModel.v
theories/UtilsProof.v
theories/UtilsProps.v
theories/IterModel.v
theories/IterSpec.v
theories/IterProof.v
theories/IterProof2.v
theories/IterProps.v
theories/FillModel.v
theories/FillSpec.v
theories/FillProof.v
theories/FillProof2.v
theories/FillProof3.v
theories/FillProof4.v
theories/FillProof5.v
theories/FillProof6.v
theories/FillProof7.v
theories/FillProof8.v
theories/FillProps.v
theories/RelaxModel.v
theories/RelaxSpec.v
theories/RelaxProof.v
theories/RelaxProof2.v
theories/RelaxProof3.v
theories/RelaxProof4.v
theories/RelaxProof5.v
theories/RelaxProof6.v
theories/RelaxProof7.v
theories/RelaxProps.v
theories/Relax2Props.v
theories/RkProof.v
theories/RkProof2.v
theories/RkProof3.v
theories/RkProps.v
theories/KrylovModel.v
theories/KrylovProof.v
theories/KrylovProof2.v
theories/KrylovProps.v
theories/KrylovSpec.v
theories/KrylovProof3.v
theories/KrylovProof4.v
theories/KrylovProof5.v
theories/KrylovProof6.v
theories/KrylovProof7.v
theories/Krylov2Props.v
theories/AderProof.v
theories/AderProof2.v
theories/AderProof3.v
theories/AderProps.v
theories/AderProof4.v
theories/Ader2Props.v
theories/Ader3Props.v
theories/HomogModel.v
theories/SplitProof.v
theories/SplitProps.v
theories/Split2Props.v
theories/Split3Props.v
theories/StiffModel.v
theories/StiffProof.v
theories/StiffProps.v
theories/MultiModel.v
theories/MixProps.v
theories/RConsModel.v
theories/RConsSpec.v
theories/RConsProof.v
theories/RConsProof2.v
theories/RConsProof3.v
theories/RConsProof4.v
theories/RConsProof5.v
theories/RConsProof6.v
theories/RConsProps.v
theories/EigProof.v
theories/EigProof2.v
theories/EigProps.v
theories/CornerProof.v
theories/CornerProof2.v
theories/CornerProof3.v
theories/CornerProof4.v
theories/CornerProps.v
theories/FaceProps.v
theories/SafeProof.v
theories/RunModel.v
theories/RunProof.v
theories/RunProof2.v
theories/RunProps.v
theories/RunProof3.v
theories/RunProof4.v
theories/Run2Props.v
theories/MRunModel.v
theories/MRunProof.v
theories/MRunProof2.v
theories/MFillSpec.v
theories/MFillProof.v
theories/MFillProof2.v
theories/MFillProps.v
theories/MRunProps.v
theories/RefSpec.v
theories/RefProof.v
theories/RefProof2.v
theories/RefProof3.v
theories/RefProof4.v
theories/RefProof5.v
theories/RefProps.v
theories/MirrorSpec.v
theories/MirrorProof.v
theories/MirrorProof2.v
theories/MirrorProof3.v
theories/MirrorProof4.v
theories/MirrorProof5.v
theories/MirrorJac.v
theories/MirrorProof6.v
theories/MirrorProps.v
theories/FrameSpec.v
theories/FrameProof.v
theories/FrameProps.v
theories/FlatProof.v
theories/FlatProof2.v
theories/FlatProof3.v
theories/FlatProps.v
theories/PredSpec.v
theories/PredProof.v
theories/PredProps.v
theories/RestSpec.v
theories/RestProof.v
theories/RestProof2.v
theories/RestProof3.v
theories/RestProof4.v
theories/RestProof5.v
theories/RestProps.v
theories/MirrorRelProps.v
theories/SymGasProps.v
theories/HandProps.v
theories/ThreadProps.v
theories/SignalProof.v
theories/SignalProps.v
theories/PlaneSpec.v
theories/PlaneProof.v
theories/PlaneProof2.v
theories/PlaneProof3.v
theories/PlaneJac.v
theories/PlaneJac2.v
theories/PlaneProps.v
theories/ScaleProof1.v
theories/ScaleProof2.v
theories/ScaleProof3.v
theories/ScaleProps.v

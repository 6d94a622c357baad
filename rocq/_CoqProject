-Q theories Verif
theories/Base_List.v
theories/Model_Parallel.v
theories/Spec_Array.v
theories/Proof_Parallel.v
theories/Proof_Npy.v
theories/Model_Stat.v
theories/Spec_Stat.v
theories/Proof_Stat.v
theories/Proof_Npy2.v
theories/Prop_Parallel.v
theories/Model_Reader1.v
theories/Spec_Reader.v
theories/Proof_Reader1.v
theories/Proof_Reader1b.v
theories/Prop_Reader1.v
theories/Model_Reader2.v
theories/Spec_Reader2.v
theories/Proof_Reader2.v
theories/Proof_Reader2b.v
theories/Prop_Reader2.v
theories/Model_ReaderMat.v
theories/Prop_ReaderMat.v
theories/Model_Base.v
theories/Proof_Base.v
theories/Proof_Names.v
theories/Spec_Weights.v
theories/Model_Weights.v
theories/Proof_Weights.v
theories/Prop_Base.v
theories/Model_Standard.v
theories/Proof_Standard1.v
theories/Proof_Standard2.v
theories/Proof_Standard3.v
theories/Prop_Standard1.v
theories/Base_CRing.v
theories/Model_Spod.v
theories/Spec_Spod.v
theories/Proof_Spod.v
theories/Proof_Dft.v
theories/Proof_Spod2.v
theories/Proof_SliceMap.v
theories/Model_SpodPar.v
theories/Proof_SpodPar.v
theories/Proof_Spectral.v
theories/Prop_Spod.v
theories/Model_Streaming.v
theories/Proof_Streaming.v
theories/Spec_StreamTime.v
theories/Model_StreamShape.v
theories/Proof_StreamShape.v
theories/Prop_StreamTime.v
theories/Spec_Stream.v
theories/Proof_StreamAlg.v
theories/Model_StreamNum.v
theories/Proof_StreamNum.v
theories/Proof_StreamNum2.v
theories/Spec_StreamNum.v
theories/Proof_StreamNum3.v
theories/Proof_Svd.v
theories/Prop_Stream.v
theories/Spec_Case.v
theories/Model_Select.v
theories/Spec_Select.v
theories/Proof_Case.v
theories/Proof_Select.v
theories/Prop_Select.v
theories/Spec_Coeffs.v
theories/Model_Coeffs.v
theories/Proof_Coeffs.v
theories/Prop_Coeffs.v
theories/Model_ConvShape.v
theories/Prop_ConvShape.v
theories/Spec_Pod.v
theories/Model_Pod.v
theories/Proof_RealSpectral.v
theories/Proof_Pod.v
theories/Prop_Pod.v
theories/Model_PodShape.v
theories/Prop_PodShape.v
theories/Model_ModeFiles.v
theories/Proof_ModeFiles.v
theories/Prop_ModeFiles.v
theories/Model_Coords.v
theories/Prop_Coords.v
theories/Model_Emul.v
theories/Prop_Emul.v
theories/Model_IO.v
theories/Prop_IO.v
theories/Model_Hamming.v
theories/Prop_Hamming.v
theories/Model_Geo.v
theories/Prop_Geo.v
theories/Model_Errors.v
theories/Prop_Errors.v
theories/Model_Plot.v
theories/Prop_Plot.v
theories/Model_Spectrum.v
theories/Prop_Spectrum.v
theories/Model_Session.v
theories/Proof_Session.v
theories/Prop_Session.v
theories/Prop_Session2.v
theories/Prop_Session3.v
theories/Prop_Session4.v
theories/Prop_Session5.v
theories/Prop_Session6.v
theories/Model_Plot2.v
theories/Prop_Plot2.v
theories/Prop_Plot3.v
theories/Prop_Peaks.v
theories/Proof_Optimal.v
theories/Proof_Optimal2.v
theories/Prop_Optimal.v
theories/Prop_Optimal2.v
theories/Prop_OptimalCases.v
theories/Model_PodSession.v
theories/Proof_PodSession.v
theories/Prop_PodSession.v
theories/Prop_PodSession2.v
theories/Model_Params.v
theories/Prop_Params.v
theories/Model_Pipeline.v
theories/Model_PipelineNum.v
theories/Proof_Pipeline.v
theories/Proof_PipelineNum.v
theories/Proof_PipelineFit.v
theories/Prop_Pipeline.v
theories/Model_Mpi.v
theories/Proof_Mpi.v
theories/Prop_Mpi.v
theories/Prop_Conv.v
theories/Model_Views.v
theories/Prop_Views.v
theories/Model_Train.v
theories/Prop_Train.v
theories/Model_Object.v
theories/Prop_Object.v
theories/Model_PlotEigs.v
theories/Prop_PlotEigs.v
theories/Prop_Roundtrip.v
theories/Model_Dtype.v
theories/Prop_Dtype.v
theories/Prop_Components.v
theories/Prop_Points.v
theories/Prop_PodOptimal.v
theories/Model_Spmd.v
theories/Spec_Spmd.v
theories/Proof_Spmd.v
theories/Proof_Spmd2.v
theories/Proof_Spmd3.v
theories/Proof_Spmd4.v
theories/Proof_Spmd5.v
theories/Prop_Spmd.v
theories/Proof_Spmd6.v
theories/Prop_SpmdFail.v
theories/Model_SharedFile.v
theories/Prop_SharedFile.v
theories/Model_Figures.v
theories/Prop_Figures.v
theories/Model_Levels.v
theories/Prop_Levels.v
theories/Prop_Score.v
theories/Model_Sizes.v
theories/Prop_Sizes.v
theories/Model_Flip.v
theories/Prop_Flip.v
theories/Model_Float.v
theories/Prop_Float.v
theories/Model_FloatSum.v
theories/Prop_FloatSum.v
theories/Model_FloatFreq.v
theories/Prop_FloatFreq.v
theories/Model_FloatMean.v
theories/Prop_FloatMean.v
theories/Proof_Weyl.v
theories/Prop_Stable.v
theories/Model_RecFile.v
theories/Spec_RecFile.v
theories/Proof_RecFile.v
theories/Prop_RecFile.v
theories/Proof_Kahan.v
theories/Spec_Align.v
theories/Proof_Align.v
theories/Prop_Align.v
theories/Model_Nan.v
theories/Spec_Nan.v
theories/Proof_Nan.v
theories/Proof_NanStream.v
theories/Prop_Nan.v
theories/Model_NanCoef.v
theories/Proof_NanCoef.v
theories/Prop_NanCoef.v
theories/Model_ByteOrder.v
theories/Prop_ByteOrder.v
theories/Model_PipelineStream.v
theories/Proof_PipelineStream.v
theories/Prop_PipelineStream.v
theories/Model_PipelinePod.v
theories/Proof_PipelinePod.v
theories/Prop_PipelinePod.v
theories/Model_PipelineCoef.v
theories/Proof_PipelineCoef.v
theories/Prop_PipelineCoef.v
theories/Prop_Workflow.v
theories/Model_PodCoef.v
theories/Proof_PodCoef.v
theories/Prop_PodWorkflow.v
theories/Model_PipelineConv.v
theories/Proof_PipelineConv.v
theories/Prop_PipelineConv.v
theories/Prop_PipelineMissing.v
theories/Prop_ConvWorkflow.v
theories/Model_StoreFiles.v
theories/Proof_StoreFiles.v
theories/Prop_StoreFiles.v
theories/Prop_PipelineFiles.v
theories/Model_PipelineFiles.v
theories/Prop_PipelineFiles2.v
theories/Prop_WorkflowFiles.v
theories/Prop_StoreFiles2.v
theories/Prop_WeightShape.v
theories/Prop_WeightShape2.v
theories/Prop_StoreFiles3.v

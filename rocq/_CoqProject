-Q theories Verif
theories/L_Base.v
theories/L_Composite.v
theories/L_Concat.v
theories/L_Convert.v
theories/L_ConvertProps.v
theories/L_ConvertSymmetry.v
theories/L_ConvertThms.v
theories/L_DDS.v
theories/L_Diagnosis.v
theories/L_Drift.v
theories/L_DriftFiles.v
theories/L_Drive.v
theories/L_DriveControl.v
theories/L_DriveExists.v
theories/L_DrivePulse.v
theories/L_DrivenControl.v
theories/L_DrivenExport.v
theories/L_Extended.v
theories/L_ExtendedConvert.v
theories/L_ExtendedDriven.v
theories/L_ExtendedPredefined.v
theories/L_FastNoise.v
theories/L_Fidelity.v
theories/L_Filter.v
theories/L_FinitePulse.v
theories/L_FirstOrder.v
theories/L_FirstOrderEnds.v
theories/L_FirstOrderFamilies.v
theories/L_Float.v
theories/L_FloatConcat.v
theories/L_FloatControls.v
theories/L_FloatControlsThms.v
theories/L_FloatConvert.v
theories/L_FloatExport.v
theories/L_FloatFiles.v
theories/L_FloatGaussian.v
theories/L_FloatLimits.v
theories/L_FloatPipeline.v
theories/L_FloatPrinted.v
theories/L_FloatProperties.v
theories/L_FloatRound.v
theories/L_FloatSchemes.v
theories/L_FloatSeq.v
theories/L_FloatText.v
theories/L_FloatThms.v
theories/L_FloatWalsh.v
theories/L_Gaussian.v
theories/L_GaussianErrors.v
theories/L_GaussianFiles.v
theories/L_Heap.v
theories/L_HeapControls.v
theories/L_HeapConvert.v
theories/L_HeapPredefined.v
theories/L_HeapRead.v
theories/L_HeapSequences.v
theories/L_HeapXY.v
theories/L_Moments.v
theories/L_Noise.v
theories/L_NoiseExact.v
theories/L_NoiseOrders.v
theories/L_NoisyFiles.v
theories/L_Orders.v
theories/L_Palindromes.v
theories/L_PreConvert.v
theories/L_Predefined.v
theories/L_Printed.v
theories/L_Quadratic.v
theories/L_Quat.v
theories/L_QuatNorm.v
theories/L_Qubit.v
theories/L_Remainder.v
theories/L_RemainderControl.v
theories/L_Requests.v
theories/L_Response.v
theories/L_ResponseThms.v
theories/L_Scrofulous.v
theories/L_Symmetry.v
theories/L_Text.v
theories/L_Toggle.v
theories/L_Trig.v
theories/L_Utils.v
theories/L_VectorControl.v
theories/L_VectorFile.v
theories/L_VectorNoise.v
theories/L_Walsh.v
theories/L_Wamf.v
theories/L_XY.v
theories/L_XYRec.v
theories/M_Constants.v
theories/M_DDS.v
theories/M_DDSPredefined.v
theories/M_DrivenControl.v
theories/M_DrivenPredefined.v
theories/M_Extended.v
theories/M_ExtendedPredefined.v
theories/M_Float.v
theories/M_FloatControls.v
theories/M_FloatConvert.v
theories/M_FloatExport.v
theories/M_FloatFiles.v
theories/M_FloatGaussian.v
theories/M_FloatPrinted.v
theories/M_FloatProperties.v
theories/M_FloatText.v
theories/M_Heap.v
theories/M_HeapControls.v
theories/M_HeapPredefined.v
theories/M_HeapRead.v
theories/M_Text.v
theories/M_Utils.v
theories/Matrix2.v
theories/P_Conversion.v
theories/P_ConvertSymmetry.v
theories/P_DDS.v
theories/P_DDSConcat.v
theories/P_Diagnosis.v
theories/P_Drift.v
theories/P_DriftFiles.v
theories/P_Drive.v
theories/P_DrivenControl.v
theories/P_DrivenPredefined.v
theories/P_Extended.v
theories/P_ExtendedPredefined.v
theories/P_FastNoise.v
theories/P_Fidelity.v
theories/P_Filter.v
theories/P_FinitePulse.v
theories/P_FirstOrder.v
theories/P_FirstOrderEnds.v
theories/P_Float.v
theories/P_FloatControls.v
theories/P_FloatConvert.v
theories/P_FloatFiles.v
theories/P_FloatGaussian.v
theories/P_FloatPrinted.v
theories/P_FloatProperties.v
theories/P_FloatText.v
theories/P_Gaussian.v
theories/P_GaussianErrors.v
theories/P_GaussianFiles.v
theories/P_Heap.v
theories/P_HeapControls.v
theories/P_HeapPredefined.v
theories/P_HeapRead.v
theories/P_Noise.v
theories/P_NoisyFiles.v
theories/P_Orders.v
theories/P_Printed.v
theories/P_Remainder.v
theories/P_Requests.v
theories/P_Response.v
theories/P_Segments.v
theories/P_Text.v
theories/P_Utils.v
theories/P_VectorControl.v
theories/P_VectorFile.v
theories/P_VectorNoise.v
theories/PyBase.v
theories/Spec_Conversion.v
theories/Spec_ConvertSymmetry.v
theories/Spec_DDS.v
theories/Spec_Diagnosis.v
theories/Spec_Drive.v
theories/Spec_DrivenControl.v
theories/Spec_Extended.v
theories/Spec_ExtendedPredefined.v
theories/Spec_Fidelity.v
theories/Spec_Filter.v
theories/Spec_FirstOrder.v
theories/Spec_FirstOrderEnds.v
theories/Spec_Float.v
theories/Spec_FloatControls.v
theories/Spec_FloatConvert.v
theories/Spec_FloatExport.v
theories/Spec_FloatFiles.v
theories/Spec_FloatGaussian.v
theories/Spec_FloatPrinted.v
theories/Spec_FloatProperties.v
theories/Spec_FloatText.v
theories/Spec_Gaussian.v
theories/Spec_GaussianErrors.v
theories/Spec_Heap.v
theories/Spec_HeapControls.v
theories/Spec_HeapPredefined.v
theories/Spec_HeapRead.v
theories/Spec_Noise.v
theories/Spec_Orders.v
theories/Spec_Predefined.v
theories/Spec_Qubit.v
theories/Spec_Remainder.v
theories/Spec_Response.v
theories/Spec_Segments.v
theories/Spec_Text.v
theories/Spec_Utils.v
theories/Spec_VectorControl.v
theories/Spec_VectorFile.v
theories/Spec_VectorNoise.v
theories/T_Conversion.v
theories/T_Sequences.v

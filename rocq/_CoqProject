-Q theories Verif
theories/L_Angles.v
theories/L_ApplyOp.v
theories/L_Average.v
theories/L_Basis.v
theories/L_Basis2.v
theories/L_Basis3.v
theories/L_Basis4.v
theories/L_CF.v
theories/L_CFrac.v
theories/L_Closed.v
theories/L_Closed2.v
theories/L_Column.v
theories/L_Comm.v
theories/L_Comm2.v
theories/L_CommandLine.v
theories/L_Cubic.v
theories/L_Dichroism.v
theories/L_Dict.v
theories/L_Expand.v
theories/L_ExpandP.v
theories/L_Expect.v
theories/L_Expect2.v
theories/L_Expect3.v
theories/L_Expect4.v
theories/L_Expect5.v
theories/L_Expect6.v
theories/L_Expect7.v
theories/L_Fock.v
theories/L_FockP.v
theories/L_Free.v
theories/L_Free2.v
theories/L_Free3.v
theories/L_Free4.v
theories/L_FromH.v
theories/L_Gaunt.v
theories/L_Green.v
theories/L_Green2.v
theories/L_Green3.v
theories/L_Green4.v
theories/L_Green5.v
theories/L_Green6.v
theories/L_Ham.v
theories/L_HamE.v
theories/L_HamP.v
theories/L_Hang.v
theories/L_Hang2.v
theories/L_Hang3.v
theories/L_Hang4.v
theories/L_Index.v
theories/L_Isotropic.v
theories/L_Ladder.v
theories/L_Ladder2.v
theories/L_Ladder3.v
theories/L_Lanczos.v
theories/L_Lanczos2.v
theories/L_Lanczos3.v
theories/L_Length.v
theories/L_Levels.v
theories/L_Levels2.v
theories/L_Levels3.v
theories/L_Lines.v
theories/L_Lines2.v
theories/L_Lines3.v
theories/L_Lines4.v
theories/L_Main.v
theories/L_Main2.v
theories/L_Main3.v
theories/L_Main4.v
theories/L_Modes.v
theories/L_Moments.v
theories/L_Moments2.v
theories/L_NIXS.v
theories/L_NIXS2.v
theories/L_Npz.v
theories/L_Operators.v
theories/L_Operators10.v
theories/L_Operators2.v
theories/L_Operators3.v
theories/L_Operators4.v
theories/L_Operators5.v
theories/L_Operators6.v
theories/L_Operators7.v
theories/L_Operators8.v
theories/L_Operators9.v
theories/L_Ops.v
theories/L_PSR.v
theories/L_PSR2.v
theories/L_Perm.v
theories/L_Plot.v
theories/L_Plot2.v
theories/L_Plot3.v
theories/L_Print.v
theories/L_Program.v
theories/L_Program2.v
theories/L_Program3.v
theories/L_Program4.v
theories/L_Program5.v
theories/L_Program6.v
theories/L_Program7.v
theories/L_Program8.v
theories/L_Program9.v
theories/L_RIXS.v
theories/L_RIXS2.v
theories/L_RIXS3.v
theories/L_RIXS4.v
theories/L_RIXS5.v
theories/L_RIXS6.v
theories/L_RIXS7.v
theories/L_RixsFile.v
theories/L_Rotation.v
theories/L_Rotation2.v
theories/L_Rotation3.v
theories/L_Rotation4.v
theories/L_Rotation5.v
theories/L_Scalar.v
theories/L_Sector.v
theories/L_Sector2.v
theories/L_Sector3.v
theories/L_Sector4.v
theories/L_Shift.v
theories/L_Shift2.v
theories/L_Shift3.v
theories/L_Shift4.v
theories/L_Sort.v
theories/L_Spectra.v
theories/L_Spectra2.v
theories/L_Spectra3.v
theories/L_Spectra4.v
theories/L_Spectra5.v
theories/L_Spectra6.v
theories/L_State.v
theories/L_Sum.v
theories/L_SumRule.v
theories/L_SumRule2.v
theories/L_SumRule3.v
theories/L_Symmetry.v
theories/L_Symmetry2.v
theories/L_Symmetry3.v
theories/L_Symmetry4.v
theories/L_Symmetry5.v
theories/L_Symmetry6.v
theories/L_Symmetry7.v
theories/L_Tensor.v
theories/L_Tensor2.v
theories/L_Tensor3.v
theories/L_TimeReversal.v
theories/L_TimeReversal2.v
theories/L_TimeReversal3.v
theories/L_Unitary.v
theories/L_Unitary2.v
theories/L_Unitary3.v
theories/L_Unitary4.v
theories/L_Unitary5.v
theories/L_Units.v
theories/L_Units2.v
theories/L_Units3.v
theories/L_Units4.v
theories/L_Vec.v
theories/M_Average.v
theories/M_Basis.v
theories/M_Comm.v
theories/M_CommandLine.v
theories/M_Expect.v
theories/M_Gaunt.v
theories/M_Hamiltonian.v
theories/M_Ladder.v
theories/M_Lanczos.v
theories/M_Main.v
theories/M_Mpi.v
theories/M_Npz.v
theories/M_Operators.v
theories/M_PSR.v
theories/M_Plot.v
theories/M_Prelude.v
theories/M_Program.v
theories/M_RIXS.v
theories/M_Scalar.v
theories/M_Simulate.v
theories/M_Spectra.v
theories/M_State.v
theories/P_Average.v
theories/P_Basis.v
theories/P_Closed.v
theories/P_Column.v
theories/P_Comm.v
theories/P_CommandLine.v
theories/P_Dichroism.v
theories/P_Dict.v
theories/P_Expect.v
theories/P_Fock.v
theories/P_Free.v
theories/P_Gaunt.v
theories/P_Green.v
theories/P_Ham.v
theories/P_Isotropic.v
theories/P_Levels.v
theories/P_Lines.v
theories/P_Main.v
theories/P_Modes.v
theories/P_Moments.v
theories/P_Npz.v
theories/P_Operators.v
theories/P_Outside.v
theories/P_Plot.v
theories/P_Print.v
theories/P_Program.v
theories/P_Program2.v
theories/P_Program3.v
theories/P_Program4.v
theories/P_Program5.v
theories/P_RIXS.v
theories/P_RIXS2.v
theories/P_Rotation.v
theories/P_Sector.v
theories/P_Shift.v
theories/P_Spectra.v
theories/P_States.v
theories/P_SumRule.v
theories/P_Symmetry.v
theories/P_Tensor.v
theories/P_TimeReversal.v
theories/P_Unitary.v
theories/P_Units.v
theories/S_Basis.v
theories/S_CF.v
theories/S_Closed.v
theories/S_CommandLine.v
theories/S_Dichroism.v
theories/S_Dict.v
theories/S_Expect.v
theories/S_Fock.v
theories/S_Free.v
theories/S_Gaunt.v
theories/S_Green.v
theories/S_Ham.v
theories/S_Isotropic.v
theories/S_Ladder.v
theories/S_Levels.v
theories/S_Lines.v
theories/S_Main.v
theories/S_Moments.v
theories/S_NIXS.v
theories/S_Npz.v
theories/S_Occ.v
theories/S_Operators.v
theories/S_Ops.v
theories/S_Output.v
theories/S_Plot.v
theories/S_Print.v
theories/S_Program.v
theories/S_RIXS.v
theories/S_RIXS2.v
theories/S_Rotation.v
theories/S_Routes.v
theories/S_Sector.v
theories/S_Shift.v
theories/S_Spectra.v
theories/S_Spectrum.v
theories/S_Spectrum2.v
theories/S_Spectrum3.v
theories/S_SumRule.v
theories/S_Symmetry.v
theories/S_Tensor.v
theories/S_Thermal.v
theories/S_TimeReversal.v
theories/S_Unitary.v
theories/S_Unitary2.v
theories/S_Units.v
theories/X_Gauss.v
theories/X_Main.v
theories/X_Ops.v
theories/X_Program.v
theories/X_Reals.v
theories/X_Rotation.v
theories/X_SumRule.v
theories/X_Symmetry.v
theories/X_Unitary.v
theories/X_Util.v

-Q theories Verif
theories/Base.v
theories/M_Sort2D.v
theories/S_Sort2D.v
theories/P_Sort2D.v
theories/Properties_Sort.v
theories/M_Slices.v
theories/S_Slices.v
theories/P_Slices.v
theories/M_Output.v
theories/S_Output.v
theories/P_Output.v
theories/Properties_Output.v
theories/M_Pairing.v
theories/S_Pairing.v
theories/P_Pairing.v
theories/M_Debye.v
theories/S_Debye.v
theories/P_Debye.v
theories/Properties_Collide.v
theories/M_Checkpoint.v
theories/S_Checkpoint.v
theories/P_Checkpoint.v
theories/Properties_Checkpoint.v
theories/M_RunLoop.v
theories/S_RunLoop.v
theories/P_RunLoop.v
theories/P_RunLoop2.v
theories/P_RunLoop3.v
theories/P_RunLoop4.v
theories/Properties_RunLoop.v
theories/M_Store.v
theories/S_Store.v
theories/P_StoreIds.v
theories/P_Store.v
theories/P_Store2.v
theories/Properties_Store.v
theories/M_Layout.v
theories/S_Layout.v
theories/P_Layout.v
theories/Properties_Layout.v
theories/M_PartSync.v
theories/S_PartSync.v
theories/P_PartSync.v
theories/P_PartSync2.v
theories/P_PartSync3.v
theories/Properties_PartSync.v
theories/M_FieldSync.v
theories/S_FieldSync.v
theories/P_Threads.v
theories/P_FieldGeo.v
theories/P_FieldPar.v
theories/P_FieldSync.v
theories/P_FieldSync2.v
theories/P_FieldSync3.v
theories/P_FieldSync4.v
theories/P_FieldSync5.v
theories/Properties_FieldSync.v
theories/M_Names.v
theories/S_Names.v
theories/P_Names.v
theories/Properties_Names.v
theories/M_AutoPatch.v
theories/S_AutoPatch.v
theories/P_AutoPatch.v
theories/Properties_AutoPatch.v
theories/M_CurrentSync.v
theories/S_CurrentSync.v
theories/P_CurrentSync.v
theories/Properties_CurrentSync.v
theories/M_Hilbert.v
theories/S_Hilbert.v
theories/P_Hilbert.v
theories/P_Hilbert3.v
theories/P_Hilbert4.v
theories/Properties_Hilbert.v
theories/M_Balance.v
theories/S_Balance.v
theories/P_Metis.v
theories/P_Balance.v
theories/P_Balance2.v
theories/Properties_Balance.v
theories/M_Sort3D.v
theories/S_Sort3D.v
theories/P_Sort3D.v
theories/P_SortOrder.v
theories/Properties_Sort3D.v
theories/M_Deposit.v
theories/S_Deposit.v
theories/P_Deposit.v
theories/P_Deposit2.v
theories/P_Deposit3.v
theories/P_Deposit4.v
theories/P_Deposit5.v
theories/P_Deposit6.v
theories/P_Deposit7.v
theories/P_Deposit8.v
theories/P_Deposit9.v
theories/Properties_Deposit.v
theories/M_Maxwell.v
theories/S_Maxwell.v
theories/P_Maxwell.v
theories/P_Maxwell2.v
theories/P_Maxwell3.v
theories/Properties_Maxwell.v
theories/M_Push.v
theories/S_Push.v
theories/P_Boris.v
theories/P_Interp.v
theories/P_Push.v
theories/Properties_Push.v
theories/M_Collision.v
theories/S_Collision.v
theories/P_Collision.v
theories/P_Collision2.v
theories/P_Collision3.v
theories/Properties_Collision.v
theories/M_Collective.v
theories/S_Collective.v
theories/P_Collective.v
theories/P_Collective2.v
theories/Properties_Collective.v
theories/M_Lists.v
theories/S_Lists.v
theories/P_Lists.v
theories/Properties_Lists.v
theories/M_Qed.v
theories/S_Qed.v
theories/P_Qed.v
theories/P_Qed2.v
theories/Properties_Qed.v
theories/M_Window.v
theories/S_Window.v
theories/P_Window.v
theories/Properties_Window.v
theories/M_Load.v
theories/S_Load.v
theories/P_Load.v
theories/Properties_Load.v
theories/M_Fill.v
theories/S_Fill.v
theories/P_Fill.v
theories/Properties_Fill.v
theories/M_Cpml.v
theories/S_Cpml.v
theories/P_Cpml.v
theories/P_Cpml2.v
theories/P_Cpml3.v
theories/P_Cpml4.v
theories/P_Cpml5.v
theories/Properties_Cpml.v
theories/S_CpmlR.v
theories/P_CpmlR.v
theories/Properties_CpmlR.v
theories/M_Step.v
theories/S_Step.v
theories/P_Step1.v
theories/P_Step2.v
theories/P_Step3.v
theories/P_Step4.v
theories/P_Step5.v
theories/P_Step6.v
theories/P_Step7.v
theories/P_Step8.v
theories/Properties_Step.v
theories/P_Cpml6.v
theories/Properties_Cpml2.v
theories/S_Gauss.v
theories/P_Gauss1.v
theories/P_Gauss2.v
theories/P_Gauss3.v
theories/Properties_Gauss.v
theories/M_Laser.v
theories/S_Laser.v
theories/P_Laser.v
theories/P_Laser2.v
theories/P_Laser3.v
theories/P_Laser4.v
theories/P_Laser5.v
theories/P_Laser6.v
theories/P_Laser7.v
theories/P_Laser8.v
theories/Properties_Laser.v
theories/M_Profile.v
theories/S_Profile.v
theories/P_Profile.v
theories/Properties_Profile.v
theories/M_QedTable.v
theories/S_QedTable.v
theories/P_QedTable.v
theories/P_QedTable2.v
theories/P_QedTable3.v
theories/Properties_QedTable.v
theories/M_Pushers.v
theories/S_Pushers.v
theories/P_Pushers.v
theories/Properties_Pushers.v
theories/M_Step3D.v
theories/S_Step3D.v
theories/P_StepD1.v
theories/P_StepD2.v
theories/P_StepD3.v
theories/P_StepD4.v
theories/P_StepD5.v
theories/P_StepD6.v
theories/P_StepD7.v
theories/P_StepD8.v
theories/Properties_Step3D.v
theories/S_Gauss3D.v
theories/P_GaussD1.v
theories/P_GaussD2.v
theories/P_GaussD3.v
theories/Properties_Gauss3D.v
theories/M_Reload.v
theories/S_Reload.v
theories/P_Reload.v
theories/Properties_Reload.v
theories/M_StepO.v
theories/S_StepO.v
theories/P_StepO1.v
theories/P_StepO2.v
theories/P_StepO3.v
theories/P_StepO4.v
theories/P_StepO5.v
theories/Properties_StepO.v
theories/M_Extract.v
theories/S_Extract.v
theories/P_Extract.v
theories/Properties_Extract.v
theories/M_Timer.v
theories/S_Timer.v
theories/P_Timer.v
theories/Properties_Timer.v
theories/M_Progress.v
theories/S_Progress.v
theories/P_Progress.v
theories/Properties_Progress.v
theories/M_StepO3D.v
theories/S_StepO3D.v
theories/P_StepQ1.v
theories/P_StepQ2.v
theories/P_StepQ3.v
theories/P_StepQ4.v
theories/P_StepQ5.v
theories/Properties_StepO3D.v
theories/S_GaussO.v
theories/P_GaussO1.v
theories/P_GaussO2.v
theories/P_GaussO3.v
theories/P_GaussO4.v
theories/Properties_GaussO.v
theories/S_GaussO3D.v
theories/P_GaussQ1.v
theories/P_GaussQ2.v
theories/P_GaussQ3.v
theories/Properties_GaussO3D.v
theories/S_Energy.v
theories/P_Energy1.v
theories/P_Energy2.v
theories/P_Energy3.v
theories/P_Energy4.v
theories/Properties_Energy.v
theories/Properties_Energy3D.v
theories/M_StepR.v
theories/S_StepR.v
theories/P_StepR.v
theories/P_StepR2.v
theories/Properties_StepR.v
theories/M_QedSetup.v
theories/S_QedSetup.v
theories/P_QedSetup.v
theories/Properties_QedSetup.v
theories/M_StepL.v
theories/P_StepL.v
theories/P_StepL2.v
theories/Properties_StepL.v
theories/M_StepW.v
theories/S_StepW.v
theories/P_StepW.v
theories/P_StepW2.v
theories/Properties_StepW.v
theories/S_Cloud.v
theories/P_Cloud.v
theories/P_Cloud2.v
theories/Properties_Cloud.v
theories/S_Sym.v
theories/P_Sym1.v
theories/P_Sym2.v
theories/P_Sym3.v
theories/P_Sym4.v
theories/P_Sym5.v
theories/P_Sym6.v
theories/Properties_Sym.v
theories/M_QedGen.v
theories/S_QedGen.v
theories/P_QedGen.v
theories/P_QedGen2.v
theories/P_QedGen3.v
theories/Properties_QedGen.v
theories/Properties_NGuard.v
theories/S_Causal.v
theories/P_Causal1.v
theories/P_Causal2.v
theories/Properties_Causal.v
theories/S_Bounds.v
theories/P_Bounds.v
theories/Properties_Bounds.v
theories/M_Files.v
theories/S_Files.v
theories/P_Files.v
theories/Properties_Files.v
theories/M_Weight.v
theories/P_Weight.v
theories/Properties_Weight.v
theories/M_Plot.v
theories/S_Plot.v
theories/P_Plot.v
theories/Properties_Plot.v
theories/S_Causal3D.v
theories/P_CausalD1.v
theories/P_CausalD2.v
theories/Properties_Causal3D.v
theories/S_Cloud3D.v
theories/P_CloudD1.v
theories/P_CloudD2.v
theories/Properties_Cloud3D.v
theories/S_Sym3D.v
theories/P_SymD1.v
theories/P_SymD2.v
theories/P_SymD3.v
theories/Properties_Sym3D.v
theories/M_Random.v
theories/S_Random.v
theories/P_Random.v
theories/Properties_Random.v
theories/M_Thermal.v
theories/S_Thermal.v
theories/Properties_Thermal.v
theories/M_Columns.v
theories/Properties_Columns.v
theories/M_PairGen.v
theories/Properties_PairGen.v
theories/M_Insert.v
theories/Properties_Insert.v
theories/M_Order.v
theories/Properties_Order.v
theories/M_Triggered.v
theories/Properties_Triggered.v
theories/M_Resume.v
theories/Properties_Resume.v

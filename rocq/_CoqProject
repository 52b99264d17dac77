-Q theories Verif
theories/Base.v
theories/RStruct.v
theories/Cplx.v
theories/Fourier_Model.v
theories/Sim_Model.v
theories/Sim_Spec.v
theories/SMat_Proofs.v
theories/SMat_Proofs2.v
theories/SMat_Proofs3.v
theories/Cderiv.v
theories/Maxwell_Spec.v
theories/Modes_Proofs.v
theories/Maxwell_Proofs.v
theories/Fourier_Spec.v
theories/Fourier_Proofs.v
theories/Setup_Model.v
theories/Energy_Spec.v
theories/Energy_Proofs.v
theories/Energy_Proofs2.v
theories/Energy_Proofs3.v
theories/Basis_Proofs.v
theories/Run_Proofs.v
theories/Run_Proofs2.v
theories/Orders_Model.v
theories/Orders_Proofs.v
theories/Diag_Proofs.v
theories/Fresnel_Proofs.v
theories/Aniso_Proofs.v
theories/Demo_Proofs.v
theories/Flux_Proofs.v
theories/Optics_Spec.v
theories/Lattice_Model.v
theories/Lattice_Spec.v
theories/Lattice_Proofs.v
theories/Lattice_Proofs2.v
theories/Lattice_Proofs3.v
theories/Lattice_Examples.v
theories/Argsort.v
theories/Props_Lattice.v
theories/Init_Model.v
theories/Init_Proofs.v
theories/Props_Init.v
theories/Props_Scattering.v
theories/Props_Energy.v
theories/Props_Fourier.v
theories/Props_Optics.v
theories/Props_Optics2.v
theories/State_Model.v
theories/State_Spec.v
theories/State_Proofs.v
theories/State_World.v
theories/State_Stack.v
theories/State_Extra.v
theories/State_Negative.v
theories/State_Instance.v
theories/State_Instance2.v
theories/Dict_Model.v
theories/Dict_Proofs.v
theories/Props_State.v
theories/Props_State_Cases.v
theories/Optimize_Model.v
theories/Optimize_Proofs.v
theories/Multisimp.v
theories/Props_Optimize.v
theories/Sampler_Model.v
theories/Sampler_Proofs.v
theories/Props_Sampler.v
theories/Geometry_Model.v
theories/Geometry_Proofs.v
theories/Props_Geometry.v
theories/Backend_Model.v
theories/Backend_Proofs.v
theories/Props_Backend.v
theories/Block_Model.v
theories/Block_Proofs.v
theories/Classify_Model.v
theories/Props_Helpers.v
theories/Filter_Model.v
theories/Filter_Proofs.v
theories/Props_Filter.v
theories/Tangent_Model.v
theories/Tangent_Proofs.v
theories/Props_Tangent.v
theories/Stress_Model.v
theories/Stress_Spec.v
theories/Stress_Proofs.v
theories/Stress_Refuted.v
theories/Props_Stress.v
theories/Grid_Model.v
theories/Grid_Spec.v
theories/Grid_Proofs.v
theories/Props_Grid.v
theories/Passive_Spec.v
theories/Absorb_Spec.v
theories/Passive_Proofs.v
theories/Passive_Proofs2.v
theories/Absorb_Proofs.v
theories/Absorb_Proofs2.v
theories/Props_Passive.v
theories/Props_Absorb.v
theories/Symm_Spec.v
theories/Symm_Proofs.v
theories/Symm_Proofs2.v
theories/Symm_Proofs3.v
theories/Symm_Proofs4.v
theories/Symm_Proofs5.v
theories/Symm_Proofs6.v
theories/Symm_Proofs7.v
theories/Symm_Proofs8.v
theories/Symm_Proofs9.v
theories/Symm_Proofs10.v
theories/Symm_Proofs11.v
theories/Demo3_Proofs.v
theories/Props_Symm.v
theories/Recip_Spec.v
theories/Recip_Proofs.v
theories/Recip_Proofs2.v
theories/Recip_Proofs3.v
theories/Recip_Proofs4.v
theories/Recip_Proofs5.v
theories/Recip_Proofs6.v
theories/Recip_Proofs7.v
theories/Recip_Proofs8.v
theories/Props_Recip.v
theories/Lattice_Proofs4.v
theories/Init_Proofs2.v
theories/E2E_Spec.v
theories/E2E_Model.v
theories/E2E_Proofs.v
theories/E2E_Proofs2.v
theories/E2E_Proofs3.v
theories/E2E_Proofs4.v
theories/Multilayer_Spec.v
theories/Multilayer_Proofs.v
theories/Multilayer_Proofs2.v
theories/Grating_Spec.v
theories/E2E_Proofs5.v
theories/Props_E2E.v
theories/Props_E2E2.v
theories/E2E_Proofs6.v
theories/Props_E2E3.v
theories/Opt_Model.v
theories/Opt_Spec.v
theories/Opt_Proofs.v
theories/Opt_Proofs2.v
theories/Opt_Proofs3.v
theories/Opt_Proofs4.v
theories/Props_Opt.v
theories/Opt_Proofs5.v
theories/Herm_Spec.v
theories/Herm_Proofs.v
theories/Herm_Proofs2.v
theories/Props_Herm.v
theories/Props_E2E4.v
theories/Topopt_Spec.v
theories/Topopt_Model.v
theories/Topopt_Proofs.v
theories/Props_Topopt.v
theories/Polar_Spec.v
theories/Polar_Proofs.v
theories/Polar_Proofs2.v
theories/Props_Polar.v
theories/Super_Spec.v
theories/Super_Proofs.v
theories/Props_Super.v
theories/Props_Super2.v

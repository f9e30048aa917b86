-Q theories Verif
theories/Groups_model.v
theories/Groups_proofs.v
theories/Crystal_model.v
theories/Crystal_spec.v
theories/Crystal_proofs.v
theories/Crystal_proofs2.v
theories/Crystal_proofs3.v
theories/Crystal_props.v
theories/Pscan_model.v
theories/Pscan_spec.v
theories/Pscan_proofs.v
theories/Pscan_units.v
theories/Pscan_props.v
theories/SemiTraced_model.v
theories/SemiTraced_props.v
theories/JitDist_model.v
theories/JitDist_props.v
theories/GS_model.v
theories/GS_proofs.v
theories/GS_proofs2.v
theories/GS_proofs3.v
theories/GS_props.v
theories/Premesh_model.v
theories/Premesh_proofs.v
theories/Premesh_props.v
theories/PyDict_model.v
theories/PyDict_proofs.v
theories/Facet_model.v
theories/Facet_spec.v
theories/Facet_proofs.v
theories/Facet_proofs2.v
theories/Facet_props.v
theories/Refiner_model.v
theories/Refiner_spec.v
theories/Refiner_proofs.v
theories/Refiner_proofs2.v
theories/Refiner_proofs3.v
theories/Refiner_proofs4.v
theories/Refiner_proofs5.v
theories/Refiner_proofs6.v
theories/Refiner_proofs7.v
theories/Refiner_proofs8.v
theories/Refiner_proofs9.v
theories/Refiner_props.v
theories/UnitCube_model.v
theories/UnitCube_spec.v
theories/UnitCube_proofs.v
theories/UnitCube_proofs2.v
theories/UnitCube_proofs3.v
theories/UnitCube_props.v
theories/UnitCube_refine.v
theories/Reader_model.v
theories/Reader_proofs.v
theories/Reader_props.v
theories/Interp_model.v
theories/Interp_spec.v
theories/Lagrange_proofs.v
theories/Interp_proofs.v
theories/Legendre_proofs.v
theories/Gauss_proofs.v
theories/Gauss_proofs2.v
theories/Interp_proofs2.v
theories/Tensor_proofs.v
theories/Interp_props.v
theories/FES_model.v
theories/FES_proofs.v
theories/FES_proofs2.v
theories/FES_props.v
theories/FES_props2.v
theories/CG_model.v
theories/CG_proofs.v
theories/CG_props.v
theories/TimeCoef_model.v
theories/TimeCoef_props.v
theories/Stokes_model.v
theories/Stokes_proofs.v
theories/Stokes_proofs2.v
theories/Stokes_spec.v
theories/Stokes_proofs3.v
theories/Stokes_create.v
theories/Stokes_create2.v
theories/Stokes_create3.v
theories/Stokes_proofs4.v
theories/Stokes_create4.v
theories/Stokes_solve.v
theories/Stokes_props.v
theories/Stokes_props2.v
theories/Sdeint_model.v
theories/Sdeint_spec.v
theories/Sdeint_proofs.v
theories/Sdeint_props.v
theories/Datagen_model.v
theories/Datagen_props.v
theories/Pipeline_model.v
theories/Pipeline_props.v
theories/Train_model.v
theories/Train_props.v
theories/Nodes_sym.v
theories/Stokes_family.v
theories/Stokes_instance.v
theories/Stokes_props3.v
theories/CG_props2.v
theories/Unisolvent_proofs.v
theories/Poisson_model.v
theories/Poisson_spec.v
theories/Poisson_proofs.v
theories/Poisson_props.v
theories/CG_props3.v
theories/Stokes_momentum.v
theories/Stokes_pressure.v
theories/Stokes_props4.v
theories/UnitCube_links.v
theories/Tensor_nodal.v
theories/Tensor_parts.v
theories/Stokes_cube.v
theories/Stokes_props5.v
theories/Stokes_props6.v
theories/Sched_model.v
theories/Sched_props.v
theories/Latent_model.v
theories/Latent_props.v
theories/Shape_model.v
theories/Shape_props.v
theories/Loss_model.v
theories/Loss_props.v
theories/Spectrum_model.v
theories/Spectrum_props.v
theories/Attn_model.v
theories/Attn_props.v
theories/Transfer_model.v
theories/Transfer_props.v
theories/Flow_props.v
theories/Steady_props.v
theories/Patch_props.v
theories/NS_model.v
theories/NS_props.v
theories/NS_props2.v
theories/Config_model.v
theories/Config_props.v
theories/Config_props2.v
theories/Config_props3.v
theories/Poly_proofs.v
theories/Poly_props.v
theories/Tke_model.v
theories/Tke_props.v
theories/NSPoly_props.v
theories/Gen_model.v
theories/Gen_props.v
theories/Bar_proofs.v
theories/Bar_props.v
theories/Net_model.v
theories/Net_props.v
theories/Untrained_props.v
theories/Untrained_gen_props.v

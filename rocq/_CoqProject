-Q theories Verif
theories/Num.v
theories/Spec.v
theories/M_init.v
theories/M_model.v
theories/M_montecarlo.v
theories/M_detector.v
theories/Spec_detector.v
theories/L_num.v
theories/L_fresnel.v
theories/L_init.v
theories/L_montecarlo.v
theories/L_montecarlo2.v
theories/L_exits.v
theories/L_weights.v
theories/L_slots.v
theories/L_accounting.v
theories/L_energy.v
theories/L_conserve.v
theories/L_geometry.v
theories/L_gonio.v
theories/L_rerun.v
theories/L_outcomes.v
theories/L_sphere_exits.v
theories/Properties_fresnel.v
theories/M_polarization.v
theories/Spec_polarization.v
theories/L_polarization.v
theories/Properties_polarization.v
theories/Properties_init.v
theories/Properties_montecarlo.v
theories/L_window.v
theories/Properties_detector.v
theories/Spec_optics.v
theories/M_refractive_index.v
theories/L_interp.v
theories/L_effindex.v
theories/L_bruggeman.v
theories/L_dispersion.v
theories/L_cargille.v
theories/L_material.v
theories/Properties_refractive_index.v
theories/M_structure.v
theories/L_structure.v
theories/L_structure2.v
theories/L_poly.v
theories/Properties_structure.v
theories/M_event_distribution.v
theories/Spec_events.v
theories/L_events.v
theories/L_tir.v
theories/Properties_events.v
theories/Spec_scatter.v
theories/M_reflection.v
theories/L_trapezoid.v
theories/Spec_reflection.v
theories/L_reflection.v
theories/L_reflection2.v
theories/L_reflection3.v
theories/L_reflection4.v
theories/L_sizes.v
theories/L_units.v
theories/L_dcs.v
theories/Properties_reflection.v
theories/M_phase_func_sphere.v
theories/Spec_bulk.v
theories/L_bulk.v
theories/L_bulk_pdf.v
theories/L_diam.v
theories/Properties_bulk.v
theories/Spec_bulk2.v
theories/L_bulk2.v
theories/Properties_bulk2.v
theories/M_simulation.v
theories/L_simulation.v
theories/Properties_simulation.v
theories/M_fields.v
theories/Spec_fields.v
theories/L_fields.v
theories/Properties_fields.v
theories/M_scat.v
theories/Spec_scat.v
theories/L_sampling.v
theories/L_scat.v
theories/Properties_scat.v
theories/M_absorbing.v
theories/Spec_absorbing.v
theories/L_fresnel_cplx.v
theories/L_absorbing.v
theories/Properties_absorbing.v
theories/M_workflow.v
theories/Properties_workflow.v
theories/M_extra.v
theories/Spec_extra.v
theories/L_extra.v
theories/Properties_extra.v
theories/M_absorption.v
theories/Properties_absorption.v
theories/L_diam2.v
theories/Properties_diam.v
theories/L_companion.v
theories/Properties_companion.v
theories/M_scat_cplx.v
theories/Spec_scat_cplx.v
theories/L_scat_cplx.v
theories/L_draws.v
theories/Properties_scat_cplx.v
theories/Properties_returned.v
theories/Spec_meta.v
theories/L_meta.v
theories/L_meta2.v
theories/L_meta3.v
theories/L_meta4.v
theories/Properties_meta.v
theories/M_rough.v
theories/Spec_rough.v
theories/L_rough.v
theories/L_rough2.v
theories/Properties_rough.v
theories/Properties_tight.v
theories/L_polylim.v
theories/L_polypos.v
theories/L_polymom.v
theories/Properties_polylim.v
theories/L_polymono.v
theories/Properties_polymono.v
theories/Properties_oils.v
theories/L_bulk3.v
theories/Properties_workflow2.v
theories/Properties_bulk3.v
theories/Spec_unitrun.v
theories/L_unitrun.v
theories/L_unitrun2.v
theories/Properties_unitrun.v
theories/M_roughflow.v
theories/Spec_roughflow.v
theories/L_roughflow.v
theories/Properties_roughflow.v
theories/Spec_thick.v
theories/L_thick.v
theories/Properties_thick.v
theories/L_pool.v
theories/Properties_pool.v
theories/M_fieldflow.v
theories/L_fieldflow.v
theories/Properties_fieldflow.v
theories/Spec_mean.v
theories/L_mean.v
theories/L_fieldmean.v
theories/Properties_fieldmean.v
theories/L_periodic.v
theories/Spec_local.v
theories/L_local.v
theories/L_local2.v
theories/Properties_local.v
theories/Spec_direct.v
theories/L_direct.v
theories/Properties_direct.v
theories/Spec_estimate.v
theories/L_estimate.v
theories/L_estimate2.v
theories/Properties_estimate.v
theories/Properties_refused.v
theories/Spec_single.v
theories/L_single.v
theories/Properties_single.v
theories/Spec_oblique.v
theories/L_oblique.v
theories/Properties_oblique.v
theories/Properties_refused2.v
theories/Spec_pathlaw.v
theories/L_pathlaw.v
theories/Properties_pathlaw.v
theories/Properties_tirfield.v
theories/Spec_diffuse.v
theories/L_diffuse.v
theories/Properties_diffuse.v
theories/Spec_thin.v
theories/L_thin.v
theories/Properties_thin.v
theories/Spec_mixture.v
theories/L_mixture.v
theories/Properties_mixture.v
theories/Properties_fieldrun.v
theories/Spec_enough.v
theories/L_enough.v
theories/Properties_enough.v
theories/Spec_later.v
theories/L_later.v
theories/Properties_later.v
theories/Spec_leave.v
theories/L_leave.v
theories/Properties_leave.v
theories/Spec_sampled.v
theories/Properties_sampled.v
theories/Spec_leaveball.v
theories/L_leaveball.v
theories/Properties_leaveball.v
theories/Spec_agree.v
theories/L_agree.v
theories/Properties_agree.v
theories/Spec_coverslip.v
theories/Properties_coverslip.v
theories/Properties_curves.v
theories/Properties_fineangles.v
theories/Spec_layers.v
theories/Properties_layers.v
theories/Spec_pressure.v
theories/Properties_pressure.v
theories/Properties_detectors.v
theories/Properties_surface.v
theories/Properties_black.v
theories/Spec_pathsum.v
theories/Properties_pathsum.v
theories/Properties_dip.v

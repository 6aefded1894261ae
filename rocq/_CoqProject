-Q theories Verif
theories/Num.v
theories/Sums.v
theories/Spec.v
theories/Perm.v
theories/Monge.v
theories/Emd1d_model.v
theories/Emd1d_proofs.v
theories/Emd1d_perm_proofs.v
theories/W1d_model.v
theories/W1d_proofs.v
theories/Emd1d_final.v
theories/P_Emd1d.v
theories/Duals_model.v
theories/Duals_proofs.v
theories/Duals_final.v
theories/P_Duals.v
theories/NS_model.v
theories/NS_emd_model.v
theories/NS_list.v
theories/NS_thread.v
theories/NS_tree.v
theories/NS_path.v
theories/NS_ctx.v
theories/NS_assemble.v
theories/NS_update.v
theories/NS_walk.v
theories/NS_pivot.v
theories/NS_inv.v
theories/NS_enter.v
theories/NS_main.v
theories/NS_init.v
theories/NS_cert.v
theories/NS_run.v
theories/NS_term.v
theories/NS_bip.v
theories/NS_dense.v
theories/Emd_model.v
theories/Emd_proofs.v
theories/Emd_final.v
theories/P_Emd.v
theories/Graph_model.v
theories/Graph_spec.v
theories/Graph_proofs.v
theories/P_Graph.v
theories/Optim_model.v
theories/Optim_proofs.v
theories/P_Optim.v
theories/Utils_model.v
theories/Utils_proofs.v
theories/Utils_batch.v
theories/P_Utils.v
theories/Partial_model.v
theories/Partial_proofs.v
theories/Partial_final.v
theories/P_Partial.v
theories/Entropy.v
theories/Dykstra_proofs.v
theories/P_Dykstra.v
theories/Sinkhorn_model.v
theories/Sinkhorn_proofs.v
theories/Sinkhorn_more.v
theories/Sinkhorn_stab.v
theories/Sinkhorn_final.v
theories/P_Sinkhorn.v
theories/Unb_model.v
theories/Unb_proofs.v
theories/Unb_conv.v
theories/Unb_opt.v
theories/Unb_mm.v
theories/Unb_stab.v
theories/Unb_ex.v
theories/P_Unb.v
theories/Gw_model.v
theories/Gw_proofs.v
theories/Gw_more.v
theories/P_Gw.v
theories/Gwbar_model.v
theories/Gwbar_proofs.v
theories/P_Gwbar.v
theories/Ugw_model.v
theories/Ugw_proofs.v
theories/P_Ugw.v
theories/Glue_model.v
theories/Glue_proofs.v
theories/P_Glue.v
theories/Dmmot_model.v
theories/Dmmot_proofs.v
theories/P_Dmmot.v
theories/Fsb_model.v
theories/Fsb_proofs.v
theories/P_Fsb.v
theories/Circle_model.v
theories/Circle_proofs.v
theories/Circle_more.v
theories/Circle_bs.v
theories/P_Circle.v
theories/Smooth_model.v
theories/Smooth_proofs.v
theories/P_Smooth.v
theories/Envelope_model.v
theories/P_Envelope.v
theories/Semi_model.v
theories/Semi_proofs.v
theories/P_Semi.v
theories/Regpath_model.v
theories/Regpath_proofs.v
theories/P_Regpath.v
theories/Wp.v
theories/Sliced_model.v
theories/Sliced_proofs.v
theories/Sliced_plans.v
theories/P_Sliced.v
theories/Exist.v
theories/Weak_model.v
theories/Weak_proofs.v
theories/P_Weak.v
theories/Da_model.v
theories/Da_proofs.v
theories/Da_reg_proofs.v
theories/P_Da.v
theories/Coot_model.v
theories/Coot_proofs.v
theories/P_Coot.v
theories/Mat.v
theories/Gaussian_model.v
theories/Gaussian_proofs.v
theories/Gaussian_emp.v
theories/P_Gaussian.v
theories/Lowrank_model.v
theories/Lowrank_proofs.v
theories/Lowrank_more.v
theories/P_Lowrank.v
theories/Bary_model.v
theories/Bary_proofs.v
theories/Bary_more.v
theories/Bary_loops.v
theories/Bary_deb.v
theories/P_Bary.v
theories/Bary_jcpot.v
theories/P_Bary2.v
theories/Sink_exist.v
theories/P_Sinkexist.v
theories/Egw_model.v
theories/Egw_proofs.v
theories/Egw_eucl.v
theories/Egw_crit.v
theories/Egw_more.v
theories/P_Egw.v
theories/P_Bapg.v
theories/P_Egwbar.v
theories/Batch_model.v
theories/Batch_proofs.v
theories/Batch_more.v
theories/P_Batch.v
theories/Mapping_model.v
theories/Mapping_proofs.v
theories/Mapping_more.v
theories/P_Mapping.v
theories/Uot1d_model.v
theories/Uot1d_proofs.v
theories/Uot1d_more.v
theories/Uot1d_uot.v
theories/P_Uot1d.v
theories/Pw1d_model.v
theories/Pw1d_core.v
theories/Pw1d_loop.v
theories/Pw1d_cost.v
theories/Pw1d_prep.v
theories/Pw1d_frac.v
theories/Pw1d_proofs.v
theories/P_Pw1d.v
theories/Gmm_model.v
theories/Gmm_proofs.v
theories/P_Gmm.v
theories/Usot_model.v
theories/Usot_proofs.v
theories/P_Usot.v
theories/Ubary_model.v
theories/Ubary_proofs.v
theories/Ubary_conv.v
theories/Ubary_link.v
theories/Ubary_stab.v
theories/Ubary_uniq.v
theories/P_Ubary.v
theories/Quant_model.v
theories/Quant_proofs.v
theories/Quant_order.v
theories/Quant_main.v
theories/Quant_mass.v
theories/P_Quant.v
theories/Ubary_more.v
theories/Emp_model.v
theories/Emp_proofs.v
theories/P_Emp.v
theories/Estim_model.v
theories/Estim_proofs.v
theories/P_Estim.v
theories/P_Estimloop.v
theories/Bsp_model.v
theories/Bsp_proofs.v
theories/Bsp_cost.v
theories/Bsp_match.v
theories/Bsp_exact.v
theories/P_Bsp.v
theories/Lbfgs_model.v
theories/Lbfgs_proofs.v
theories/Lbfgs_grad.v
theories/P_Lbfgs.v
theories/Unmix_model.v
theories/Unmix_proofs.v
theories/P_Unmix.v
theories/Conv_model.v
theories/Conv_proofs.v
theories/Conv_psd.v
theories/P_Conv.v
theories/Sgromov_model.v
theories/Sgromov_proofs.v
theories/P_Sgromov.v
theories/Solve_model.v
theories/Solve_proofs.v
theories/P_Solve.v
theories/Sample_model.v
theories/P_Sample.v
theories/Semipath_model.v
theories/Semipath_proofs.v
theories/P_Semipath.v
theories/Lrgw_model.v
theories/Lrgw_proofs.v
theories/P_Lrgw.v
theories/Lpbar_model.v
theories/Lpbar_proofs.v
theories/P_Lpbar.v
theories/Gdict_model.v
theories/Gdict_proofs.v
theories/P_Gdict.v

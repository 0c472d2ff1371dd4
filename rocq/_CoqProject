-Q theories Verif
theories/Base_Py.v
theories/Base_Sum.v
theories/Base_Mat.v
theories/Base_Lin.v
theories/Base_Np.v
theories/Base_Mem.v
theories/Base_Trig.v
theories/M_utils.v
theories/S_utils.v
theories/P_utils.v
theories/Prop_utils.v
theories/M_sources.v
theories/M_array.v
theories/M_designs.v
theories/M_coarray.v
theories/S_designs.v
theories/S_coarray.v
theories/P_designs.v
theories/P_designs2.v
theories/P_coarray.v
theories/P_coarray2.v
theories/Prop_designs.v
theories/Prop_coarray.v
theories/S_sources.v
theories/P_sources.v
theories/P_sources2.v
theories/P_sources3.v
theories/S_array.v
theories/P_array.v
theories/P_array2.v
theories/P_array3.v
theories/M_heap.v
theories/S_heap.v
theories/P_heap.v
theories/Prop_sources.v
theories/S_model.v
theories/P_model.v
theories/Prop_array.v
theories/Prop_coarray2.v
theories/M_grid.v
theories/M_core.v
theories/P_core0.v
theories/S_grid.v
theories/P_grid.v
theories/P_core.v
theories/P_core2.v
theories/Prop_grid.v
theories/M_srcnum.v
theories/S_srcnum.v
theories/P_srcnum.v
theories/Prop_srcnum.v
theories/M_subspace.v
theories/S_subspace.v
theories/P_subspace.v
theories/P_subspace2.v
theories/P_subspace3.v
theories/P_subspace4.v
theories/P_subspace5.v
theories/P_eig2.v
theories/Prop_subspace.v
theories/Prop_root.v
theories/Prop_esprit.v
theories/M_perf.v
theories/S_perf.v
theories/P_gauss.v
theories/P_perf.v
theories/P_perf2.v
theories/P_perf3.v
theories/P_perf4.v
theories/P_perf5.v
theories/Prop_perf.v
theories/Prop_perf2.v
theories/Prop_perf3.v
theories/M_ml.v
theories/S_ml.v
theories/P_ml.v
theories/P_ml2.v
theories/P_ml3.v
theories/P_ml4.v
theories/P_ml5.v
theories/P_ml6.v
theories/P_ml7.v
theories/P_ml8.v
theories/P_ml9.v
theories/Prop_ml.v
theories/Prop_ml2.v
theories/Prop_ml3.v
theories/M_signals.v
theories/S_signals.v
theories/P_signals.v
theories/P_spectral.v
theories/P_oracles.v
theories/Prop_signals.v
theories/M_sparse.v
theories/S_sparse.v
theories/P_sparse.v
theories/P_sparse2.v
theories/P_sparse3.v
theories/Prop_sparse.v
theories/M_plot.v
theories/S_plot.v
theories/P_plot.v
theories/Prop_plot.v
theories/P_fta.v
theories/P_fta2.v
theories/M_pipeline.v
theories/S_pipeline.v
theories/P_pipeline.v
theories/P_pipeline2.v
theories/P_pipeline3.v
theories/Prop_pipeline.v
theories/Prop_pipeline2.v
theories/Prop_srcnum2.v
theories/P_minnorm.v
theories/P_pipeline4.v
theories/P_beam.v
theories/Prop_pipeline4.v
theories/P_mse.v
theories/Prop_mse.v
theories/Prop_names.v
theories/Prop_pipeline5.v
theories/S_equiv.v
theories/P_equiv.v
theories/P_equiv2.v
theories/Prop_equiv.v
theories/Prop_equiv2.v
theories/P_courant.v
theories/Prop_ml4.v
theories/S_invar.v
theories/P_invar.v
theories/P_invar2.v
theories/P_invar3.v
theories/Prop_invar.v
theories/S_mono.v
theories/P_mono.v
theories/P_mono2.v
theories/P_mono3.v
theories/Prop_mono.v
theories/S_invar2.v
theories/P_invar4.v
theories/Prop_invar2.v
theories/S_invar3.v
theories/P_invar5.v
theories/P_pinv.v
theories/Prop_invar3.v
theories/S_invar4.v
theories/P_invar6.v
theories/Prop_invar4.v
theories/S_stable.v
theories/P_stable.v
theories/P_stable2.v
theories/P_stable3.v
theories/P_stable4.v
theories/P_stable5.v
theories/Prop_stable.v
theories/P_detect.v
theories/S_detect.v
theories/Prop_detect.v
theories/P_cont.v
theories/P_cont2.v
theories/P_cont3.v
theories/P_cont4.v
theories/P_cont5.v
theories/P_cont6.v
theories/S_cont.v
theories/Prop_cont.v
theories/P_rootc.v
theories/P_rootc2.v
theories/S_rootc.v
theories/P_rootc3.v
theories/P_rootc4.v
theories/P_rootc5.v
theories/Prop_rootc.v
theories/Prop_detect2.v
theories/S_mirror.v
theories/P_mirror.v
theories/P_mirror2.v
theories/Prop_mirror.v
theories/P_mlc.v
theories/P_mlc2.v
theories/P_mlc3.v
theories/P_mlc4.v
theories/S_mlc.v
theories/P_mlc5.v
theories/P_mlc6.v
theories/P_mlc7.v
theories/P_mlc8.v
theories/P_mlc9.v
theories/P_mlc10.v
theories/P_mlc11.v
theories/P_mlc12.v
theories/Prop_mlc.v
theories/S_offgrid.v
theories/P_off1.v
theories/P_off2.v
theories/P_off3.v
theories/S_refine.v
theories/P_off4.v
theories/P_off5.v
theories/P_off7.v
theories/P_off8.v
theories/P_off6.v
theories/P_off9.v
theories/P_off10.v
theories/Prop_offgrid.v
theories/Prop_refine.v
theories/S_scan.v
theories/Prop_offgrid2.v
theories/S_stat.v
theories/P_stat.v
theories/Prop_stat.v
theories/Prop_stat2.v
theories/P_smooth.v
theories/Prop_smooth.v
theories/Prop_smooth2.v
theories/Prop_stat3.v
theories/Prop_edges.v
theories/P_detect2.v
theories/Prop_detect3.v

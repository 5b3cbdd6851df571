-Q theories Verif
theories/Base.v
theories/BaseSum.v
theories/M_dofs.v
theories/S_dofs.v
theories/L_dofinfo.v
theories/L_expand.v
theories/L_chains.v
theories/L_epbc.v
theories/S_eqmap.v
theories/L_eqloop.v
theories/L_eqfin.v
theories/L_eqprops.v
theories/L_eqmain.v
theories/S_matrix.v
theories/L_operator.v
theories/L_eqex.v
theories/M_assemble.v
theories/S_assemble.v
theories/L_assemble.v
theories/L_adof.v
theories/P_dofs.v
theories/P_eqmap.v
theories/P_assemble.v
theories/FieldTac.v
theories/L_block.v
theories/L_build.v
theories/L_build2.v
theories/L_chunks.v
theories/L_cubature.v
theories/L_dgflux.v
theories/L_dgflux2.v
theories/L_econn.v
theories/L_econn2.v
theories/L_econn3.v
theories/L_econn4.v
theories/L_facet.v
theories/L_fmf.v
theories/L_gm.v
theories/L_graph.v
theories/L_homog.v
theories/L_hyper.v
theories/L_hyper2.v
theories/L_hyper3.v
theories/L_iga.v
theories/L_iga2.v
theories/L_iga3.v
theories/L_kuhn.v
theories/L_lagrange.v
theories/L_leg.v
theories/L_map.v
theories/L_merge.v
theories/L_mesh.v
theories/L_parallel.v
theories/L_quadchk.v
theories/L_quadchk2.v
theories/L_quadchk3.v
theories/L_quadchk4.v
theories/L_quadint.v
theories/L_quadtab.v
theories/L_quadtab2.v
theories/L_refine.v
theories/L_region.v
theories/L_resolve.v
theories/L_terms.v
theories/L_terms2.v
theories/L_tile.v
theories/L_ts.v
theories/L_vars.v
theories/L_vcache.v
theories/M_block.v
theories/M_cgeigs.v
theories/M_conf.v
theories/M_conf2.v
theories/M_cont.v
theories/M_contact.v
theories/M_dgflux.v
theories/M_dglim.v
theories/M_dgnbr.v
theories/M_dgts.v
theories/M_ed.v
theories/M_efaces.v
theories/M_elast.v
theories/M_facet.v
theories/M_fmf.v
theories/M_geom.v
theories/M_graph.v
theories/M_h5obj.v
theories/M_hdf5.v
theories/M_hess.v
theories/M_homog.v
theories/M_hyper.v
theories/M_iga.v
theories/M_iga2.v
theories/M_iga3.v
theories/M_io.v
theories/M_lagnodes.v
theories/M_lagrange.v
theories/M_lcbc.v
theories/M_leg.v
theories/M_linutils.v
theories/M_ls.v
theories/M_map.v
theories/M_mat.v
theories/M_membrane.v
theories/M_merge.v
theories/M_mesh.v
theories/M_nls.v
theories/M_opt.v
theories/M_output.v
theories/M_parallel.v
theories/M_passemble.v
theories/M_periodic.v
theories/M_plane.v
theories/M_probe.v
theories/M_qeig.v
theories/M_quad.v
theories/M_quadtab.v
theories/M_refine.v
theories/M_region.v
theories/M_resolve.v
theories/M_restart.v
theories/M_sconf.v
theories/M_sparse.v
theories/M_sparse2.v
theories/M_ssn.v
theories/M_tensor.v
theories/M_terms.v
theories/M_tile.v
theories/M_ts.v
theories/M_tsc.v
theories/M_tsloop.v
theories/M_units.v
theories/M_vars.v
theories/M_voxel.v
theories/P_adapt.v
theories/P_block.v
theories/P_cgeigs.v
theories/P_cgeigs2.v
theories/P_composite.v
theories/P_conf.v
theories/P_conf2.v
theories/P_conf3.v
theories/P_conf4.v
theories/P_conf5.v
theories/P_conf6.v
theories/P_cont.v
theories/P_contact.v
theories/P_contact2.v
theories/P_convol.v
theories/P_cubature.v
theories/P_dgflux.v
theories/P_dgflux2.v
theories/P_dgflux3.v
theories/P_dgflux4.v
theories/P_dglim.v
theories/P_dglim2.v
theories/P_dglim3.v
theories/P_dgnbr.v
theories/P_dgts.v
theories/P_dgts2.v
theories/P_dgts3.v
theories/P_econn.v
theories/P_ed.v
theories/P_edschemes.v
theories/P_efaces.v
theories/P_elast.v
theories/P_extract.v
theories/P_facets.v
theories/P_geom.v
theories/P_geom2.v
theories/P_graph.v
theories/P_h5obj.v
theories/P_hdf5.v
theories/P_hess.v
theories/P_homog.v
theories/P_hyper.v
theories/P_hyper2.v
theories/P_hyper3.v
theories/P_hyper4.v
theories/P_hyper5.v
theories/P_hyper6.v
theories/P_hyper7.v
theories/P_iga.v
theories/P_iga10.v
theories/P_iga11.v
theories/P_iga12.v
theories/P_iga2.v
theories/P_iga3.v
theories/P_iga4.v
theories/P_iga5.v
theories/P_iga6.v
theories/P_iga7.v
theories/P_iga8.v
theories/P_iga9.v
theories/P_infnorm.v
theories/P_io.v
theories/P_lagbubble.v
theories/P_lagnodes.v
theories/P_lagrange.v
theories/P_lagtensor.v
theories/P_lcbc.v
theories/P_lcbc2.v
theories/P_lcbc3.v
theories/P_leg.v
theories/P_leg2.v
theories/P_leg3.v
theories/P_leg4.v
theories/P_linutils.v
theories/P_ls.v
theories/P_ls2.v
theories/P_map.v
theories/P_map2.v
theories/P_map3.v
theories/P_map4.v
theories/P_map5.v
theories/P_map6.v
theories/P_map7.v
theories/P_map_ex.v
theories/P_mat.v
theories/P_mat2.v
theories/P_membrane.v
theories/P_merge.v
theories/P_mesh.v
theories/P_mgeo.v
theories/P_nls.v
theories/P_opt.v
theories/P_output.v
theories/P_parallel.v
theories/P_parallel2.v
theories/P_parse.v
theories/P_passemble.v
theories/P_passemble2.v
theories/P_periodic.v
theories/P_plane.v
theories/P_polygon.v
theories/P_probe.v
theories/P_probe2.v
theories/P_probe3.v
theories/P_probe4.v
theories/P_qeig.v
theories/P_quad.v
theories/P_refine.v
theories/P_refine2.v
theories/P_refine3.v
theories/P_refine4.v
theories/P_refine5.v
theories/P_region.v
theories/P_resolve.v
theories/P_restart.v
theories/P_sconf.v
theories/P_sparse.v
theories/P_sparse2.v
theories/P_ssn.v
theories/P_ssn2.v
theories/P_tensor.v
theories/P_terms.v
theories/P_terms2.v
theories/P_terms3.v
theories/P_terms4.v
theories/P_terms5.v
theories/P_terms6.v
theories/P_termsc.v
theories/P_termsd.v
theories/P_termse.v
theories/P_tile.v
theories/P_triang.v
theories/P_ts.v
theories/P_tsc.v
theories/P_tsloop.v
theories/P_units.v
theories/P_vars.v
theories/P_voxel.v
theories/S_conf.v
theories/S_dgflux.v
theories/S_dglim.v
theories/S_dgnbr.v
theories/S_dgts.v
theories/S_econn.v
theories/S_graph.v
theories/S_hyper.v
theories/S_iga.v
theories/S_iga2.v
theories/S_leg.v
theories/S_ls.v
theories/S_map.v
theories/S_mat.v
theories/S_opt.v
theories/S_parse.v
theories/S_quad.v
theories/S_region.v
theories/S_ssn.v
theories/S_terms.v
theories/S_tsloop.v
theories/S_vars.v

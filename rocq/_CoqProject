-Q theories Verif
theories/M_arrays.v
theories/M_base.v
theories/M_cache.v
theories/M_cli.v
theories/M_clipobj.v
theories/M_clipper.v
theories/M_connectivity.v
theories/M_dbody.v
theories/M_dbuoy.v
theories/M_dclip.v
theories/M_dgeom.v
theories/M_dhydro.v
theories/M_dinertia.v
theories/M_double.v
theories/M_dplane.v
theories/M_dreport.v
theories/M_files.v
theories/M_formats.v
theories/M_geometry.v
theories/M_hsold.v
theories/M_hydro.v
theories/M_inertia.v
theories/M_inp.v
theories/M_merge.v
theories/M_mesh.v
theories/M_mmio.v
theories/M_oldreport.v
theories/M_plane.v
theories/M_print.v
theories/M_regex.v
theories/M_rotations.v
theories/M_text.v
theories/M_viewer.v
theories/M_vtk.v
theories/P_afloat.v
theories/P_archimedes.v
theories/P_arrays.v
theories/P_arrays2.v
theories/P_arrays3.v
theories/P_arrays4.v
theories/P_arrays5.v
theories/P_arrays6.v
theories/P_barge.v
theories/P_base.v
theories/P_cache.v
theories/P_checks.v
theories/P_cli.v
theories/P_clip_mesh.v
theories/P_clipobj.v
theories/P_clipped.v
theories/P_clipper.v
theories/P_columns.v
theories/P_cones.v
theories/P_connectivity.v
theories/P_contour.v
theories/P_crown.v
theories/P_curves.v
theories/P_cut.v
theories/P_dat.v
theories/P_dbody.v
theories/P_dbuoy.v
theories/P_dcenter.v
theories/P_dclip.v
theories/P_dclip2.v
theories/P_dclip3.v
theories/P_dclip4.v
theories/P_dclip5.v
theories/P_dgeom.v
theories/P_dgeom2.v
theories/P_dgeom3.v
theories/P_dgeom4.v
theories/P_dgeom5.v
theories/P_dhydro.v
theories/P_dhydro2.v
theories/P_dinertia.v
theories/P_dinertia2.v
theories/P_dinertia3.v
theories/P_dispatch.v
theories/P_double.v
theories/P_double2.v
theories/P_double3.v
theories/P_double4.v
theories/P_double5.v
theories/P_double6.v
theories/P_dplane.v
theories/P_dplane2.v
theories/P_dreport.v
theories/P_dvol.v
theories/P_equil.v
theories/P_extent.v
theories/P_flat.v
theories/P_formats.v
theories/P_geometry.v
theories/P_heal.v
theories/P_healed.v
theories/P_hsbox.v
theories/P_hsold.v
theories/P_hst.v
theories/P_hull.v
theories/P_hydro.v
theories/P_hydro2.v
theories/P_immersed.v
theories/P_inertia.v
theories/P_inp.v
theories/P_inp2.v
theories/P_inp3.v
theories/P_inp4.v
theories/P_integral.v
theories/P_layout.v
theories/P_merge.v
theories/P_mesh.v
theories/P_mmio.v
theories/P_motions.v
theories/P_msh.v
theories/P_nofuel.v
theories/P_odd.v
theories/P_oldreport.v
theories/P_parts.v
theories/P_plane.v
theories/P_planes.v
theories/P_print.v
theories/P_quantities.v
theories/P_rad.v
theories/P_regex.v
theories/P_report.v
theories/P_rotations.v
theories/P_search.v
theories/P_sharp.v
theories/P_solids.v
theories/P_stale.v
theories/P_stl.v
theories/P_tec.v
theories/P_text.v
theories/P_vee.v
theories/P_viewer.v
theories/P_volume.v
theories/P_vtk.v
theories/P_waterline.v
theories/P_waterplane.v
theories/P_wetted.v
theories/P_witness.v
theories/S_arrays.v
theories/S_cache.v
theories/S_cli.v
theories/S_clipobj.v
theories/S_clipper.v
theories/S_connectivity.v
theories/S_dbody.v
theories/S_dclip.v
theories/S_dgeom.v
theories/S_double.v
theories/S_dreport.v
theories/S_equil.v
theories/S_files.v
theories/S_formats.v
theories/S_geometry.v
theories/S_hsold.v
theories/S_hydro.v
theories/S_inertia.v
theories/S_inp.v
theories/S_integral.v
theories/S_merge.v
theories/S_mesh.v
theories/S_oldreport.v
theories/S_plane.v
theories/S_print.v
theories/S_rad.v
theories/S_report.v
theories/S_rotations.v
theories/S_solids.v
theories/S_text.v
theories/S_viewer.v
theories/S_vtk.v
theories/T_arrays.v
theories/T_cache.v
theories/T_cli.v
theories/T_clipobj.v
theories/T_clipper.v
theories/T_connectivity.v
theories/T_dat.v
theories/T_dbody.v
theories/T_dbuoy.v
theories/T_dclip.v
theories/T_dgeom.v
theories/T_dhydro.v
theories/T_dinertia.v
theories/T_double.v
theories/T_dplane.v
theories/T_dreport.v
theories/T_equil.v
theories/T_files.v
theories/T_formats.v
theories/T_geometry.v
theories/T_hsold.v
theories/T_hydro.v
theories/T_inertia.v
theories/T_inp.v
theories/T_merge.v
theories/T_mesh.v
theories/T_mmio.v
theories/T_msh.v
theories/T_oldreport.v
theories/T_plane.v
theories/T_planes.v
theories/T_print.v
theories/T_rad.v
theories/T_rotations.v
theories/T_viewer.v
theories/T_viewers.v
theories/T_vtk.v

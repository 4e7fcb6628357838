-Q theories Verif
theories/Model_aabb.v
theories/Model_base.v
theories/Model_binary.v
theories/Model_boolean.v
theories/Model_cache.v
theories/Model_candidates.v
theories/Model_classify.v
theories/Model_cli.v
theories/Model_context.v
theories/Model_corefine.v
theories/Model_defects.v
theories/Model_ffi.v
theories/Model_find.v
theories/Model_forkjoin.v
theories/Model_geometry.v
theories/Model_graph.v
theories/Model_interleave.v
theories/Model_local.v
theories/Model_mesh.v
theories/Model_mix.v
theories/Model_overlap.v
theories/Model_parallel_do.v
theories/Model_parallel_sort.v
theories/Model_points.v
theories/Model_region.v
theories/Model_reuse.v
theories/Model_schedule.v
theories/Model_side.v
theories/Model_soup.v
theories/Model_text.v
theories/Spec_aabb.v
theories/Spec_again.v
theories/Spec_balance.v
theories/Spec_binary.v
theories/Spec_boolean.v
theories/Spec_cache.v
theories/Spec_candidates.v
theories/Spec_classify.v
theories/Spec_cli.v
theories/Spec_conform.v
theories/Spec_context.v
theories/Spec_corefine.v
theories/Spec_cut.v
theories/Spec_defects.v
theories/Spec_delaunay.v
theories/Spec_ffi.v
theories/Spec_find.v
theories/Spec_graph.v
theories/Spec_local.v
theories/Spec_lucky.v
theories/Spec_meet.v
theories/Spec_mesh.v
theories/Spec_mix.v
theories/Spec_open.v
theories/Spec_overlap.v
theories/Spec_parallel_do.v
theories/Spec_parallel_sort.v
theories/Spec_points.v
theories/Spec_race.v
theories/Spec_radial.v
theories/Spec_same.v
theories/Spec_side.v
theories/Spec_solid.v
theories/Spec_text.v
theories/Spec_visible.v
theories/Spec_volume.v
theories/Spec_volume_expr.v
theories/Spec_watertight.v
theories/Spec_whole.v
theories/Proof_aabb.v
theories/Proof_accepts.v
theories/Proof_affine.v
theories/Proof_again.v
theories/Proof_angle.v
theories/Proof_area.v
theories/Proof_around.v
theories/Proof_arranged.v
theories/Proof_arranged_volume.v
theories/Proof_balance.v
theories/Proof_base.v
theories/Proof_binary.v
theories/Proof_border_edge.v
theories/Proof_bridge.v
theories/Proof_builder.v
theories/Proof_cache.v
theories/Proof_candidates.v
theories/Proof_cells.v
theories/Proof_classify.v
theories/Proof_cli.v
theories/Proof_clip.v
theories/Proof_closed.v
theories/Proof_collect.v
theories/Proof_conform.v
theories/Proof_conform_run.v
theories/Proof_convex.v
theories/Proof_convexturns.v
theories/Proof_corefine_all.v
theories/Proof_corefine_exists.v
theories/Proof_corefine_geo.v
theories/Proof_corefine_ids.v
theories/Proof_corefine_out.v
theories/Proof_corefine_rec.v
theories/Proof_corefine_run.v
theories/Proof_corefine_side.v
theories/Proof_corefine_tri.v
theories/Proof_cut.v
theories/Proof_cut_agree.v
theories/Proof_cut_edges.v
theories/Proof_cut_faces.v
theories/Proof_cut_mix.v
theories/Proof_cut_pre.v
theories/Proof_cut_reach.v
theories/Proof_cut_run.v
theories/Proof_defect_edges.v
theories/Proof_defect_vertices.v
theories/Proof_defects.v
theories/Proof_delaunay.v
theories/Proof_delaunay_ex.v
theories/Proof_edge.v
theories/Proof_exact.v
theories/Proof_extract.v
theories/Proof_extreme.v
theories/Proof_fan.v
theories/Proof_fan4.v
theories/Proof_ffi_all.v
theories/Proof_ffi_calls.v
theories/Proof_ffi_edge.v
theories/Proof_ffi_order.v
theories/Proof_ffi_orient.v
theories/Proof_ffi_plane.v
theories/Proof_ffi_result.v
theories/Proof_find.v
theories/Proof_forkjoin.v
theories/Proof_giveup.v
theories/Proof_graph.v
theories/Proof_hinge.v
theories/Proof_hull.v
theories/Proof_inner_edge.v
theories/Proof_link.v
theories/Proof_local.v
theories/Proof_lucky.v
theories/Proof_meet.v
theories/Proof_mesh.v
theories/Proof_mix.v
theories/Proof_mix_faces.v
theories/Proof_obj.v
theories/Proof_off.v
theories/Proof_one_run.v
theories/Proof_oneset.v
theories/Proof_open.v
theories/Proof_open_op.v
theories/Proof_open_run.v
theories/Proof_open_shared.v
theories/Proof_outline.v
theories/Proof_overlap.v
theories/Proof_pairs.v
theories/Proof_parallel_do.v
theories/Proof_parallel_run.v
theories/Proof_parallel_sort.v
theories/Proof_paths.v
theories/Proof_planes.v
theories/Proof_ply.v
theories/Proof_points.v
theories/Proof_polygon.v
theories/Proof_probe.v
theories/Proof_propagate.v
theories/Proof_radial.v
theories/Proof_represents.v
theories/Proof_reuse.v
theories/Proof_same.v
theories/Proof_schedule.v
theories/Proof_schedule_end.v
theories/Proof_schedule_local.v
theories/Proof_schedule_propagate.v
theories/Proof_schedule_race.v
theories/Proof_schedule_run.v
theories/Proof_schedule_seq.v
theories/Proof_sectors.v
theories/Proof_separate.v
theories/Proof_sheet.v
theories/Proof_side.v
theories/Proof_side_in.v
theories/Proof_small.v
theories/Proof_solid.v
theories/Proof_special.v
theories/Proof_sticks.v
theories/Proof_text.v
theories/Proof_tiling_area.v
theories/Proof_touch.v
theories/Proof_turn.v
theories/Proof_twins.v
theories/Proof_twosides.v
theories/Proof_unique.v
theories/Proof_visible.v
theories/Proof_walk.v
theories/Proof_watertight.v
theories/Proof_wedge.v
theories/Proof_whole.v
theories/Proof_whole_ex.v
theories/Proof_winding.v
theories/Prop_aabb.v
theories/Prop_again.v
theories/Prop_again_ex.v
theories/Prop_balance.v
theories/Prop_balance_ex.v
theories/Prop_binary.v
theories/Prop_boolean.v
theories/Prop_cache.v
theories/Prop_candidates.v
theories/Prop_classify.v
theories/Prop_cli.v
theories/Prop_cli_mesh.v
theories/Prop_conform.v
theories/Prop_connected.v
theories/Prop_context.v
theories/Prop_corefine.v
theories/Prop_cut.v
theories/Prop_defects.v
theories/Prop_delaunay.v
theories/Prop_delaunay_ex.v
theories/Prop_end.v
theories/Prop_ffi.v
theories/Prop_find.v
theories/Prop_find_op.v
theories/Prop_graph.v
theories/Prop_local.v
theories/Prop_lucky.v
theories/Prop_lucky_ex.v
theories/Prop_meet.v
theories/Prop_meet_closed.v
theories/Prop_meet_ex.v
theories/Prop_mesh.v
theories/Prop_mix.v
theories/Prop_open.v
theories/Prop_open_ex.v
theories/Prop_overlap.v
theories/Prop_parallel_do.v
theories/Prop_parallel_sort.v
theories/Prop_points.v
theories/Prop_reuse.v
theories/Prop_same.v
theories/Prop_schedule.v
theories/Prop_side.v
theories/Prop_solid.v
theories/Prop_text.v
theories/Prop_touch.v
theories/Prop_visible.v
theories/Prop_volume.v
theories/Prop_volume_convex.v
theories/Prop_volume_ex.v
theories/Prop_volume_expr.v
theories/Prop_volume_operands.v
theories/Prop_volume_origin.v
theories/Prop_volume_sets.v
theories/Prop_watertight.v
theories/Prop_watertight_ex.v
theories/Prop_whole.v
theories/Prop_whole_ex.v

-Q theories Verif
theories/ArrayPrint_model.v
theories/ArrayPrint_proofs.v
theories/ArrayPrint_spec.v
theories/Arrays_model.v
theories/Arrays_proofs.v
theories/Arrays_spec.v
theories/Arrays_thm.v
theories/Assemble_model.v
theories/Assemble_proofs.v
theories/Assemble_thm.v
theories/AtomicRec_model.v
theories/AtomicRec_proofs.v
theories/AtomicRec_thm.v
theories/AtomicUse_model.v
theories/AtomicUse_spec.v
theories/AtomicUse_thm.v
theories/CGArith_model.v
theories/CGArith_proofs.v
theories/CGArith_spec.v
theories/CGArith_thm.v
theories/CPrint_expr.v
theories/CPrint_model.v
theories/CPrint_prog.v
theories/CPrint_spec.v
theories/CPrint_thm.v
theories/CSyntax.v
theories/CSyntax_proofs.v
theories/CText.v
theories/CTyped.v
theories/CTyped_thm.v
theories/Codegen_create.v
theories/Codegen_dfs.v
theories/Codegen_emit.v
theories/Codegen_exec.v
theories/Codegen_fexec.v
theories/Codegen_flow.v
theories/Codegen_link.v
theories/Codegen_model.v
theories/Codegen_ops.v
theories/Codegen_order.v
theories/Codegen_plan.v
theories/Codegen_refuted.v
theories/Codegen_reuse.v
theories/Codegen_sol.v
theories/Codegen_spec.v
theories/Codegen_thm.v
theories/Codegen_use.v
theories/Color_model.v
theories/Color_thm.v
theories/Compare_model.v
theories/Compare_thm.v
theories/Containers_model.v
theories/Containers_thm.v
theories/DaeGen_build.v
theories/DaeGen_diff.v
theories/DaeGen_info.v
theories/DaeGen_inv.v
theories/DaeGen_lists.v
theories/DaeGen_main.v
theories/DaeGen_model.v
theories/DaeGen_remove.v
theories/DaeGen_spec.v
theories/DaeGen_structure.v
theories/DaeGen_thm.v
theories/Decimal_model.v
theories/Decimal_proofs.v
theories/Decimal_spec.v
theories/Decimal_thm.v
theories/Drivers_model.v
theories/Drivers_proofs.v
theories/Drivers_thm.v
theories/DummyD_info.v
theories/DummyD_model.v
theories/DummyD_regen.v
theories/DummyD_select.v
theories/DummyD_spec.v
theories/DummyD_thm.v
theories/Elim_end.v
theories/Elim_graph.v
theories/Elim_loop.v
theories/Elim_model.v
theories/Elim_spec.v
theories/Elim_thm.v
theories/Eval_inst.v
theories/Eval_model.v
theories/Eval_proofs.v
theories/Eval_rec.v
theories/Eval_spec.v
theories/Eval_thm.v
theories/Exec_child.v
theories/Exec_inv.v
theories/Exec_model.v
theories/Exec_spec.v
theories/Exec_thm.v
theories/Graph_Double.v
theories/Graph_Qc.v
theories/Graph_R.v
theories/Graph_model.v
theories/Graph_proofs.v
theories/Graph_spec.v
theories/Index_model.v
theories/Index_plane.v
theories/Index_proofs.v
theories/Index_spec.v
theories/Index_text.v
theories/Index_thm.v
theories/LibGen_create.v
theories/LibGen_lib.v
theories/LibGen_maps.v
theories/LibGen_model.v
theories/LibGen_proofs.v
theories/LibGen_spec.v
theories/LibGen_thm.v
theories/LibGen_world.v
theories/Library_model.v
theories/Library_proofs.v
theories/Library_spec.v
theories/Library_thm.v
theories/Linked_model.v
theories/Linked_thm.v
theories/LoopAsm_group.v
theories/LoopAsm_main.v
theories/LoopAsm_maps.v
theories/LoopAsm_model.v
theories/LoopAsm_run.v
theories/LoopAsm_spec.v
theories/LoopAsm_thm.v
theories/LoopCond_cond.v
theories/LoopCond_main.v
theories/LoopCond_model.v
theories/LoopCond_proofs.v
theories/LoopCond_spec.v
theories/LoopCond_thm.v
theories/LoopDir_model.v
theories/LoopDir_proofs.v
theories/LoopDir_thm.v
theories/LoopFor1_all.v
theories/LoopFor1_col.v
theories/LoopFor1_groups.v
theories/LoopFor1_iters.v
theories/LoopFor1_main.v
theories/LoopFor1_model.v
theories/LoopFor1_spec.v
theories/LoopFor1_thm.v
theories/LoopIter_model.v
theories/LoopIter_thm.v
theories/LoopJac_analysis.v
theories/LoopJac_final.v
theories/LoopJac_main.v
theories/LoopJac_maps.v
theories/LoopJac_model.v
theories/LoopJac_row.v
theories/LoopJac_run.v
theories/LoopJac_spec.v
theories/LoopJac_state.v
theories/LoopJac_thm.v
theories/LoopJac_values.v
theories/LoopMove_graph.v
theories/LoopMove_model.v
theories/LoopMove_search.v
theories/LoopMove_spec.v
theories/LoopMove_thm.v
theories/LoopMove_values.v
theories/LoopRev1_analysis.v
theories/LoopRev1_exec.v
theories/LoopRev1_main.v
theories/LoopRev1_model.v
theories/LoopRev1_thm.v
theories/LoopRev1_used.v
theories/LoopTape_check.v
theories/LoopTape_clone.v
theories/LoopTape_cmp.v
theories/LoopTape_find.v
theories/LoopTape_graph.v
theories/LoopTape_loop.v
theories/LoopTape_main.v
theories/LoopTape_model.v
theories/LoopTape_path.v
theories/LoopTape_spec.v
theories/LoopTape_thm.v
theories/Match_examples.v
theories/Match_init.v
theories/Match_loop.v
theories/Match_model.v
theories/Match_pant.v
theories/Match_proofs.v
theories/Match_spec.v
theories/Match_struct.v
theories/Match_thm.v
theories/Names_model.v
theories/Names_thm.v
theories/Pantelides_endless.v
theories/Pantelides_proofs.v
theories/Pantelides_thm.v
theories/Path_graph.v
theories/Path_model.v
theories/Path_proofs.v
theories/Path_spec.v
theories/Path_thm.v
theories/Paths_model.v
theories/Paths_spec.v
theories/Paths_thm.v
theories/PoolSys_model.v
theories/Pool_exact.v
theories/Pool_group.v
theories/Pool_live.v
theories/Pool_model.v
theories/Pool_proofs.v
theories/Pool_stop.v
theories/Pool_thm.v
theories/Range_model.v
theories/Range_proofs.v
theories/Range_spec.v
theories/Range_thm.v
theories/Regen_model.v
theories/Regen_thm.v
theories/Relations_model.v
theories/Relations_thm.v
theories/Report_calls.v
theories/Report_eval.v
theories/Report_model.v
theories/Report_proofs.v
theories/Report_spec.v
theories/Report_thm.v
theories/Soares_diff.v
theories/Soares_model.v
theories/Soares_pass.v
theories/Soares_path.v
theories/Soares_proofs.v
theories/Soares_spec.v
theories/Soares_thm.v
theories/Solve_clone.v
theories/Solve_collect.v
theories/Solve_collect_thm.v
theories/Solve_fuel.v
theories/Solve_grow.v
theories/Solve_keep.v
theories/Solve_loop.v
theories/Solve_many.v
theories/Solve_many_thm.v
theories/Solve_model.v
theories/Solve_once.v
theories/Solve_plain.v
theories/Solve_proofs.v
theories/Solve_spec.v
theories/Solve_thm.v
theories/Solve_total.v
theories/Sparsity_lists.v
theories/Sparsity_model.v
theories/Sparsity_proofs.v
theories/Sparsity_spec.v
theories/Sparsity_thm.v
theories/Split_model.v
theories/Split_thm.v
theories/Stream_model.v
theories/Stream_spec.v
theories/Stream_thm.v
theories/Subst_model.v
theories/Subst_thm.v
theories/Tables_model.v
theories/Tables_thm.v
theories/Text_model.v
theories/Text_thm.v
theories/View_model.v
theories/View_thm.v

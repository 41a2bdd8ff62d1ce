-Q theories Verif
theories/Base.v
theories/Rel.v
theories/Htn_problem.v
theories/Htn_model.v
theories/Htn_spec.v
theories/Htn_sem.v
theories/Htn_iso.v
theories/Htn_rep.v
theories/Htn_proof.v
theories/Htn_history.v
theories/Htn_search.v
theories/Htn_hist.v
theories/Htn_total.v
theories/Htn_thm.v
theories/Tree_spec.v
theories/Tree_model.v
theories/Tree_proof.v
theories/Tree_thm.v
theories/Arr.v
theories/Heap_model.v
theories/Heap_proof.v
theories/Heap_thm.v
theories/IntUtil_model.v
theories/IntUtil_proof.v
theories/IntUtil_thm.v
theories/IntSet_model.v
theories/NoDel_proof.v
theories/NoDel_thm.v
theories/BInt_thm.v
theories/Bucket_thm.v
theories/DelIter_thm.v
theories/Stack_thm.v
theories/Order_model.v
theories/Order_proof.v
theories/Order_thm.v
theories/Tab_model.v
theories/Tab_proof.v
theories/Tab_thm.v
theories/Relax_spec.v
theories/Relax_model.v
theories/Dij.v
theories/Aff_proof.v
theories/FF_proof.v
theories/HMax_proof.v
theories/LmCut_proof.v
theories/Relax_thm.v
theories/Scc_spec.v
theories/Scc_model.v
theories/Scc_proof.v
theories/Reach_proof.v
theories/ReachHeap_proof.v
theories/Reach_thm.v
theories/Rc_spec.v
theories/Rc_model.v
theories/Rc_proof.v
theories/Rc_thm.v
theories/Trie_model.v
theories/Trie_proof.v
theories/Trie_thm.v
theories/Vis_model.v
theories/VisTop_proof.v
theories/Vis_proof.v
theories/VisOrd_proof.v
theories/Vis_thm.v
theories/Fringe_model.v
theories/Fringe_proof.v
theories/Fringe_thm.v
theories/Astar_model.v
theories/Astar_proof.v
theories/Astar_vis.v
theories/Astar_thm.v
theories/Sat_model.v
theories/Sat_spec.v
theories/Sat_proof.v
theories/Sat_thm.v
theories/Sf_model.v
theories/Sf_spec.v
theories/Sf_proof.v
theories/Sf_thm.v
theories/To_spec.v
theories/To_sem.v
theories/Sog_model.v
theories/Sog_spec.v
theories/Sog_proof.v
theories/Sog_thm.v
theories/Pdt_model.v
theories/Pdt_spec.v
theories/Pdt_tree.v
theories/Pdt_expand.v
theories/Pdt_prune.v
theories/Pdt_leafs.v
theories/Pdt_vars.v
theories/Pdt_clause.v
theories/Pdt_dec.v
theories/Pdt_sound.v
theories/Pdt_round.v
theories/Pdt_choice.v
theories/Pdt_complete.v
theories/Pdt_main.v
theories/Pdt_thm.v
theories/Inv_model.v
theories/Inv_spec.v
theories/Inv_rint.v
theories/Inv_close.v
theories/Inv_thm.v
theories/Mx_model.v
theories/Mx_spec.v
theories/Mx_clause.v
theories/Mx_prune.v
theories/Mx_main.v
theories/Mx_thm.v
theories/Posog_model.v
theories/Posog_spec.v
theories/Posog_merge.v
theories/Posog_order.v
theories/Posog_tree.v
theories/Posog_thm.v
theories/Pom_model.v
theories/Pom_spec.v
theories/Pom_proof.v
theories/Pom_lin.v
theories/Pom_full.v
theories/Pom_thm.v
theories/Htn_check.v
theories/Mix_model.v
theories/Mix_spec.v
theories/Mix_proof.v
theories/Mix_thm.v
theories/Comb_model.v
theories/Comb_spec.v
theories/Comb_proof.v
theories/Comb_thm.v
theories/Read_model.v
theories/Read_spec.v
theories/Read_proof.v
theories/Read_thm.v
theories/Pg_model.v
theories/Pg_spec.v
theories/Pg_proof.v
theories/Pg_thm.v
theories/Lm_model.v
theories/Lm_spec.v
theories/Lm_proof.v
theories/Lm_graph.v
theories/Lm_thm.v
theories/Mem_model.v
theories/Mem_spec.v
theories/Mem_store.v
theories/Mem_proof.v
theories/Mem_search.v
theories/Mem_thm.v
theories/Sas_model.v
theories/Sas_spec.v
theories/Sas_proof.v
theories/Sas_sim.v
theories/Sas_act.v
theories/Sas_rep.v
theories/Sas_stack.v
theories/Sas_ops.v
theories/Sas_run.v
theories/Sas_thm.v
theories/Hddl_model.v
theories/Hddl_proof.v
theories/Hddl_tree.v
theories/Hddl_thm.v
theories/Push_model.v
theories/Push_spec.v
theories/Push_net.v
theories/Push_sys.v
theories/Push_run.v
theories/Push_sim.v
theories/Push_ops.v
theories/Push_thm.v
theories/Pout_model.v
theories/Pout_push.v
theories/Strips_model.v
theories/Strips_spec.v
theories/Strips_comb.v
theories/Strips_net.v
theories/Strips_sys.v
theories/Strips_run.v
theories/Strips_sim.v
theories/Strips_ops.v
theories/Strips_thm.v
theories/Pseq_model.v
theories/Pseq_spec.v
theories/Pseq_net.v
theories/Pseq_run.v
theories/Pseq_sys.v
theories/Pseq_sim.v
theories/Pseq_ops.v
theories/Pseq_thm.v
theories/Pgb_model.v
theories/Pgb_spec.v
theories/Pgb_proof.v
theories/Pgb_run.v
theories/Pgb_low.v
theories/Pgb_thm.v
theories/Spr_model.v
theories/Spr_spec.v
theories/Spr_tree.v
theories/Spr_proof.v
theories/Spr_thm.v
theories/Bdd_model.v
theories/Bdd_spec.v
theories/Bdd_proof.v
theories/Bdd_trans.v
theories/Bdd_image.v
theories/Bdd_thm.v
theories/Aut_model.v
theories/Aut_sem.v
theories/Aut_inv.v
theories/Aut_step.v
theories/Aut_run.v
theories/Aut_thm.v
theories/Pp_model.v
theories/Pp_spec.v
theories/Pp_sem.v
theories/Pp_kind.v
theories/Pp_build.v
theories/Pp_round.v
theories/Pp_sound.v
theories/Pp_main.v
theories/Pp_thm.v
theories/Pc_tree.v
theories/Pc_choice.v
theories/Pc_main.v
theories/Pc_thm.v
theories/Loc_spec.v
theories/Loc_model.v
theories/Loc_proof.v
theories/Loc_thm.v
theories/Opt_spec.v
theories/Opt_model.v
theories/Opt_proof.v
theories/Opt_main.v
theories/Opt_thm.v
theories/Leaf_model.v
theories/Leaf_spec.v
theories/Leaf_proof.v
theories/Leaf_pure.v
theories/Leaf_main.v
theories/Leaf_thm.v
theories/Dof_spec.v
theories/Dof_model.v
theories/Dof_count.v
theories/Dof_proof.v
theories/Dof_net.v
theories/Dof_main.v
theories/Dof_sol.v
theories/Dof_relax.v
theories/Dof_exact.v
theories/Dof_thm.v
theories/Tdg_spec.v
theories/Tdg_model.v
theories/Tdg_proof.v
theories/Tdg_thm.v
theories/Imp_model.v
theories/Imp_proof.v
theories/Imp_thm.v
theories/Arg_spec.v
theories/Arg_model.v
theories/Arg_proof.v
theories/Arg_thm.v
theories/Bfs_thm.v
theories/Tbl_thm.v

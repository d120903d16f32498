-Q theories Verif
theories/Base.v
theories/SV_spec.v
theories/Eval_model.v
theories/Eval_proofs.v
theories/Eval_props.v
theories/IR.v
theories/IRSem_spec.v
theories/IR_lemmas.v
theories/IfCase_model.v
theories/IfCase_spec.v
theories/IfCase_proofs.v
theories/IR_frame.v
theories/IfCase_props.v
theories/RemoveEmpty_spec.v
theories/RemoveEmpty_model.v
theories/RemoveEmpty_proofs.v
theories/RemoveEmpty_props.v
theories/MergeIf_spec.v
theories/MergeIf_model.v
theories/MergeIf_proofs.v
theories/MergeIf_props.v
theories/Bits.v
theories/MergeWire_model.v
theories/MergeWire_spec.v
theories/MergeWire_proofs.v
theories/MergeWire_props.v
theories/Num_model.v
theories/Num_spec.v
theories/Num_proofs.v
theories/Const_model.v
theories/Const_spec.v
theories/Const_proofs.v
theories/Const_props.v
theories/Print_spec.v
theories/Lex_spec.v
theories/Print_model.v
theories/Print_proofs.v
theories/Lex_proofs.v
theories/Print_props.v
theories/Slice_spec.v
theories/Slice_model.v
theories/Slice_proofs.v
theories/Slice_props.v
theories/Struct_spec.v
theories/Struct_model.v
theories/Struct_proofs.v
theories/Struct_props.v
theories/Util_spec.v
theories/Util_model.v
theories/Util_proofs.v
theories/Util_props.v
theories/Util_real.v
theories/Sim_spec.v
theories/Sim_model.v
theories/Sim_proofs.v
theories/Sim_props.v
theories/Flow_spec.v
theories/Flow_model.v
theories/Flow_proofs.v
theories/Flow_props.v
theories/Enable_spec.v
theories/Enable_model.v
theories/Enable_proofs.v
theories/Enable_props.v
theories/Driver_spec.v
theories/Driver_model.v
theories/Driver_proofs.v
theories/Driver_props.v
theories/Fsm_spec.v
theories/Fsm_model.v
theories/Fsm_proofs.v
theories/Fsm_sem.v
theories/Fsm_main.v
theories/Fsm_props.v
theories/Name_spec.v
theories/Name_model.v
theories/Name_proofs.v
theories/Name_props.v
theories/Uniq_spec.v
theories/Uniq_model.v
theories/Uniq_proofs.v
theories/Uniq_props.v
theories/Hash_spec.v
theories/Hash_model.v
theories/Hash_proofs.v
theories/Hash_props.v
theories/Hash_inj.v
theories/Seen_props.v
theories/Graph_spec.v
theories/Graph_model.v
theories/Graph_proofs.v
theories/Graph_props.v
theories/Xform_spec.v
theories/Xform_model.v
theories/Xform_proofs.v
theories/Xform_props.v
theories/Wire_spec.v
theories/Wire_model.v
theories/Wire_proofs.v
theories/Wire_props.v
theories/Bundle_spec.v
theories/Bundle_model.v
theories/Bundle_props.v
theories/Cov_spec.v
theories/Cov_model.v
theories/Cov_proofs.v
theories/Cov_props.v
theories/Xml_spec.v
theories/Xml_model.v
theories/Xml_proofs.v
theories/Xml_props.v
theories/Covparse_spec.v
theories/Covparse_model.v
theories/Covparse_proofs.v
theories/Covparse_props.v
theories/Path_spec.v
theories/Path_model.v
theories/Path_proofs.v
theories/Path_props.v
theories/Nest_spec.v
theories/Nest_model.v
theories/Nest_proofs.v
theories/Nest_props.v
theories/Loop_spec.v
theories/Loop_model.v
theories/Loop_props.v
theories/Zero_spec.v
theories/Zero_model.v
theories/Zero_proofs.v
theories/Zero_props.v
theories/Sram_spec.v
theories/Sram_model.v
theories/Sram_proofs.v
theories/Sram_props.v
theories/Gate_spec.v
theories/Gate_model.v
theories/Gate_proofs.v
theories/Gate_props.v
theories/Pipe_spec.v
theories/Pipe_model.v
theories/Pipe_proofs.v
theories/Pipe_props.v
theories/Param_model.v
theories/Param_spec.v
theories/Param_proofs.v
theories/Param_props.v
theories/Design_spec.v
theories/Design_proofs.v
theories/Dce_spec.v
theories/Dce_model.v
theories/Dce_proofs.v
theories/Dce_props.v
theories/Fan_spec.v
theories/Fan_model.v
theories/Retarget_proofs.v
theories/Fan_proofs.v
theories/Fan_props.v
theories/Tie_spec.v
theories/Tie_model.v
theories/Tie_proofs.v
theories/Tie_props.v
theories/Move_spec.v
theories/Move_model.v
theories/Move_proofs.v
theories/Move_props.v
theories/Pass_spec.v
theories/Pass_model.v
theories/Pass_proofs.v
theories/Pass_run.v
theories/Pass_props.v
theories/Net_spec.v
theories/Net_model.v
theories/Net_proofs.v
theories/Net_props.v
theories/Build_spec.v
theories/Build_model.v
theories/Build_proofs.v
theories/Build_props.v
theories/Check_spec.v
theories/Check_model.v
theories/Check_proofs.v
theories/Check_props.v
theories/Simq_spec.v
theories/Simq_model.v
theories/Simq_proofs.v
theories/Simq_props.v
theories/Decl_spec.v
theories/Decl_model.v
theories/Decl_proofs.v
theories/Decl_props.v
theories/Emit_spec.v
theories/Emit_model.v
theories/Emit_proofs.v
theories/Emit_props.v
theories/Call_spec.v
theories/Call_model.v
theories/Call_proofs.v
theories/Call_props.v
theories/Iface_spec.v
theories/Iface_model.v
theories/Iface_proofs.v
theories/Iface_props.v
theories/Inline_spec.v
theories/Inline_model.v
theories/Inline_proofs.v
theories/Inline_whole.v
theories/Inline_props.v
theories/Inst_spec.v
theories/Inst_model.v
theories/Inst_proofs.v
theories/Inst_steps.v
theories/Inst_run.v
theories/Inst_inv.v
theories/Inst_whole.v
theories/Inst_props.v
theories/Unused_model.v
theories/Unused_props.v
theories/Lift_spec.v
theories/Lift_model.v
theories/Lift_proofs.v
theories/Lift_props.v
theories/Seqp_spec.v
theories/Seqp_model.v
theories/Seqp_props.v
theories/Strip_model.v
theories/Strip_props.v
theories/Assign_spec.v
theories/Assign_model.v
theories/Assign_props.v
theories/Handle_spec.v
theories/Handle_model.v
theories/Handle_props.v
theories/Fsmb_model.v
theories/Fsmb_props.v
theories/Pfix_model.v
theories/Pfix_props.v
theories/Child_model.v
theories/Child_props.v
theories/Tydef_model.v
theories/Tydef_props.v
theories/Pack_model.v
theories/Pack_props.v
theories/Arr_model.v
theories/Arr_props.v
theories/Syn_model.v
theories/Syn_props.v
theories/Idx_model.v
theories/Idx_props.v
theories/Blk_model.v
theories/Blk_props.v
theories/Dbg_spec.v
theories/Dbg_model.v
theories/Dbg_props.v
theories/Ssa_spec.v
theories/Ssa_model.v
theories/Ssa_props.v
theories/Cln_model.v
theories/Cln_props.v
theories/Stg_model.v
theories/Stg_props.v
theories/Lnk_spec.v
theories/Lnk_model.v
theories/Lnk_props.v
theories/Sw_spec.v
theories/Sw_model.v
theories/Sw_props.v
theories/Txt_model.v
theories/Txt_props.v
theories/Vport_spec.v
theories/Vport_model.v
theories/Vport_props.v
theories/Conn_spec.v
theories/Conn_model.v
theories/Conn_props.v
theories/Dvar_spec.v
theories/Dvar_model.v
theories/Dvar_props.v
theories/Sel_spec.v
theories/Sel_model.v
theories/Sel_props.v
theories/Kid_spec.v
theories/Kid_model.v
theories/Kid_proofs.v
theories/Kid_props.v
theories/Ifv_spec.v
theories/Ifv_model.v
theories/Ifv_proofs.v
theories/Ifv_props.v
theories/Big_spec.v
theories/Big_model.v
theories/Big_proofs.v
theories/Big_props.v
theories/Cpy_spec.v
theories/Cpy_model.v
theories/Cpy_proofs.v
theories/Cpy_props.v
theories/Evt_spec.v
theories/Evt_model.v
theories/Evt_proofs.v
theories/Evt_props.v
theories/Fix_spec.v
theories/Fix_model.v
theories/Fix_proofs.v
theories/Fix_props.v
theories/Ctx_spec.v
theories/Ctx_model.v
theories/Ctx_proofs.v
theories/Ctx_props.v
theories/Stub_spec.v
theories/Stub_model.v
theories/Stub_proofs.v
theories/Stub_props.v
theories/Pm_spec.v
theories/Pm_model.v
theories/Pm_proofs.v
theories/Pm_props.v
theories/Lab_spec.v
theories/Lab_model.v
theories/Lab_proofs.v
theories/Lab_props.v
theories/Cat_spec.v
theories/Cat_model.v
theories/Cat_proofs.v
theories/Cat_props.v
theories/Walk_spec.v
theories/Walk_model.v
theories/Walk_proofs.v
theories/Walk_props.v
theories/Fso_spec.v
theories/Fso_model.v
theories/Fso_proofs.v
theories/Fso_props.v
theories/Ind_spec.v
theories/Ind_model.v
theories/Ind_proofs.v
theories/Ind_props.v

-Q theories Verif
theories/Arith_Model.v
theories/Arith_Props.v
theories/ArrExt_Model.v
theories/ArrExt_Proofs.v
theories/ArrExt_Props.v
theories/ArrExt_Props2.v
theories/ArrExt_Spec.v
theories/Base.v
theories/Buffer_Model.v
theories/Buffer_Props.v
theories/Chan_Model.v
theories/Chan_Props.v
theories/Const_Model.v
theories/Const_Props.v
theories/Crc_Model.v
theories/Crc_Proofs.v
theories/Crc_Props.v
theories/Crc_Spec.v
theories/Ctl_Model.v
theories/Ctl_Proofs.v
theories/Ctl_Proofs2.v
theories/Ctl_Props.v
theories/Ctl_Props2.v
theories/Ctl_Props3.v
theories/Ctl_Spec.v
theories/DSW_Model.v
theories/DSW_Proofs.v
theories/DSW_Props.v
theories/DSW_Spec.v
theories/Defrag_Model.v
theories/Defrag_Proofs.v
theories/Defrag_Proofs2.v
theories/Defrag_Props.v
theories/Defrag_Spec.v
theories/DispArg_Model.v
theories/DispArg_Proofs.v
theories/DispArg_Props.v
theories/DispArg_Props2.v
theories/DispArg_Spec.v
theories/Disp_Model.v
theories/Disp_Proofs.v
theories/Disp_Proofs2.v
theories/Disp_Proofs3.v
theories/Disp_Proofs4.v
theories/Disp_Props.v
theories/Disp_Props2.v
theories/Disp_Spec.v
theories/Env_Model.v
theories/Env_Proofs.v
theories/Env_Props.v
theories/Eq_Model.v
theories/Eq_Props.v
theories/Eq_Spec.v
theories/Eval_GC.v
theories/Eval_Model.v
theories/Eval_Proofs.v
theories/Eval_Proofs2.v
theories/Eval_Proofs3.v
theories/Eval_Proofs4.v
theories/Eval_Proofs5.v
theories/Eval_Proofs6.v
theories/Eval_Proofs7.v
theories/Eval_Props.v
theories/Eval_Rel.v
theories/Eval_Spec.v
theories/Event_Model.v
theories/Event_Props.v
theories/Flat_Model.v
theories/Flat_Proofs.v
theories/Flat_Proofs2.v
theories/Flat_Proofs3.v
theories/Flat_Props.v
theories/Flat_Safe.v
theories/Flat_Spec.v
theories/Fund_Model.v
theories/Fund_Proofs.v
theories/Fund_Props.v
theories/Fund_Props2.v
theories/Fund_Props3.v
theories/Fund_Props4.v
theories/Fund_Props5.v
theories/Fund_Props6.v
theories/Fund_Spec.v
theories/GC_Check.v
theories/GC_Model.v
theories/GC_Proofs.v
theories/GC_Proofs2.v
theories/GC_Proofs3.v
theories/GC_Proofs4.v
theories/GC_Proofs5.v
theories/GC_Props.v
theories/GC_Spec.v
theories/GC_Term.v
theories/GC_TermProps.v
theories/Heap_Model.v
theories/Heap_Proofs.v
theories/Heap_Proofs2.v
theories/Heap_Props.v
theories/Heap_Spec.v
theories/List_Proofs.v
theories/List_Props.v
theories/Loop_Model.v
theories/Loop_Proofs.v
theories/Loop_Props.v
theories/Loop_Props2.v
theories/Loop_Spec.v
theories/Map_Model.v
theories/Map_Proofs.v
theories/Map_Props.v
theories/Map_Props2.v
theories/Map_Spec.v
theories/Match_Model.v
theories/Match_Props.v
theories/Mem_Model.v
theories/Mem_Proofs.v
theories/Mem_Proofs2.v
theories/Mem_Props.v
theories/Mem_Spec.v
theories/Packet_Model.v
theories/Packet_Proofs.v
theories/Packet_Props.v
theories/Packet_Spec.v
theories/Prim_Model.v
theories/Prim_Spec.v
theories/Print_Model.v
theories/Print_Proofs.v
theories/Print_Props.v
theories/Print_Spec.v
theories/QQ_Model.v
theories/QQ_Proofs.v
theories/QQ_Proofs2.v
theories/QQ_Proofs3.v
theories/QQ_Props.v
theories/QQ_Spec.v
theories/Rand_Model.v
theories/Rand_Proofs.v
theories/Rand_Props.v
theories/Read_Model.v
theories/Read_Proofs.v
theories/Read_Proofs2.v
theories/Read_Proofs3.v
theories/Read_Proofs4.v
theories/Read_Proofs5.v
theories/Read_Props.v
theories/Read_Props2.v
theories/Read_Props3.v
theories/Read_Spec.v
theories/Rotate_Props.v
theories/Sched_Ex.v
theories/Sched_Model.v
theories/Sched_Proofs.v
theories/Sched_Proofs2.v
theories/Sched_Proofs3.v
theories/Sched_Proofs4.v
theories/Sched_Props.v
theories/Sched_Spec.v
theories/Seg_Proofs.v
theories/Set_Props.v
theories/Sort_Model.v
theories/Sort_Proofs.v
theories/Sort_Props.v
theories/Stack_Model.v
theories/Stack_Props.v
theories/StrExt_Model.v
theories/StrExt_Proofs.v
theories/StrExt_Proofs2.v
theories/StrExt_Props.v
theories/StrExt_Props2.v
theories/StrExt_Props3.v
theories/StrExt_Props4.v
theories/StrExt_Props5.v
theories/StrExt_Spec.v
theories/Sym_Model.v
theories/Sym_Props.v
theories/Tail_Spec.v
theories/Tok_Model.v
theories/Tok_Props.v
theories/Value_Model.v
theories/Value_Proofs.v
theories/Value_Proofs2.v
theories/Value_Props.v

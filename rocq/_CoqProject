-Q theories Verif
theories/Bits_Model.v
theories/Bits_Spec.v
theories/Bits_Proofs.v
theories/Bits_Props.v
theories/Opt_Model.v
theories/Opt_Spec.v
theories/Opt_Proofs1.v
theories/Opt_Proofs2.v
theories/Opt_Proofs3.v
theories/Opt_Proofs4.v
theories/Opt_Proofs5.v
theories/Opt_Props.v
theories/Alg_Model.v
theories/Alg_Spec.v
theories/Alg_Proofs1.v
theories/Alg_Proofs2.v
theories/Alg_Proofs3.v
theories/Alg_Proofs4.v
theories/Alg_Props.v
theories/BT_Model.v
theories/BT_Spec.v
theories/BT_Proofs1.v
theories/BT_Proofs2.v
theories/BT_Proofs3.v
theories/BT_Proofs4.v
theories/BT_Props.v
theories/Ev_Model.v
theories/Ev_Spec.v
theories/Ev_Proofs1.v
theories/Ev_Proofs2.v
theories/Ev_Proofs3.v
theories/Ev_Proofs4.v
theories/Ev_Proofs5.v
theories/Ev_Proofs6.v
theories/Ev_Proofs7.v
theories/Ev_Props.v
theories/Wick_Model.v
theories/Wick_Spec.v
theories/Wick_Ring.v
theories/Wick_Proofs1.v
theories/Wick_Proofs2.v
theories/Wick_Proofs3.v
theories/Wick_Proofs4.v
theories/Wick_Proofs5.v
theories/Wick_Proofs6.v
theories/Wick_Proofs7.v
theories/Wick_Proofs8.v
theories/Wick_Proofs9.v
theories/Wick_Proofs10.v
theories/Wick_Proofs11.v
theories/Wick_Props.v
theories/Expr_Model.v
theories/Expr_Spec.v
theories/Expr_Proofs1.v
theories/Expr_Proofs2.v
theories/Expr_Proofs3.v
theories/Expr_Proofs4.v
theories/Expr_Proofs5.v
theories/Expr_Props.v
theories/Expr_Proofs6.v
theories/Expr_Alias.v
theories/Expr_Acc_Props.v
theories/AsyCost_Model.v
theories/AsyCost_Spec.v
theories/AsyCost_Proofs.v
theories/AsyCost_Props.v
theories/Reg_Model.v
theories/Reg_Spec.v
theories/Reg_Proofs.v
theories/Reg_Contract.v
theories/Reg_Conv.v
theories/Reg_Memo.v
theories/Reg_Props.v
theories/Reg_Examples.v
theories/Idx_Model.v
theories/Idx_Spec.v
theories/Idx_Proofs1.v
theories/Idx_Proofs2.v
theories/Idx_Props.v
theories/Bin_Model.v
theories/Bin_Spec.v
theories/Bin_Sums.v
theories/Bin_Proofs.v
theories/Bin_Props.v
theories/Sto_Model.v
theories/Sto_Spec.v
theories/Sto_Proofs.v
theories/Sto_Props.v
theories/Clu_Model.v
theories/Clu_Spec.v
theories/Clu_Proofs.v
theories/Clu_Props.v
theories/Gen_Model.v
theories/Gen_Spec.v
theories/Gen_Proofs.v
theories/Gen_Proofs2.v
theories/Gen_Props.v
theories/Exp_Model.v
theories/Exp_Spec.v
theories/Exp_Proofs1.v
theories/Exp_Proofs2.v
theories/Exp_Props.v
theories/Fus_Model.v
theories/Fus_Props.v
theories/Qn_Model.v
theories/Qn_Spec.v
theories/Qn_Proofs1.v
theories/Qn_Proofs2.v
theories/Qn_Proofs3.v
theories/Qn_Example.v
theories/Qn_Props.v
theories/Com_Model.v
theories/Com_Proofs.v
theories/Com_Props.v
theories/Spn_Model.v
theories/Spn_Spec.v
theories/Spn_Proofs1.v
theories/Spn_Proofs2.v
theories/Spn_Proofs3.v
theories/Spn_Proofs4.v
theories/Spn_Proofs5.v
theories/Spn_Proofs6.v
theories/Spn_Proofs7.v
theories/Spn_Proofs8.v
theories/Spn_Proofs9.v
theories/Spn_Proofs10.v
theories/Spn_Proofs11.v
theories/Spn_Proofs12.v
theories/Spn_Proofs13.v
theories/Spn_Props.v
theories/Tsr_Model.v
theories/Tsr_Spec.v
theories/Tsr_Proofs1.v
theories/Tsr_Proofs2.v
theories/Tsr_Proofs3.v
theories/Tsr_Proofs4.v
theories/Tsr_Proofs5.v
theories/Tsr_Proofs6.v
theories/Tsr_Proofs7.v
theories/Tsr_Props.v
theories/Net_Model.v
theories/Net_Spec.v
theories/Net_Proofs1.v
theories/Net_Proofs2.v
theories/Net_Proofs3.v
theories/Net_Proofs4.v
theories/Net_Props.v
theories/Net_Spec2.v
theories/Net_Proofs5.v
theories/Net_Proofs6.v
theories/Net_Proofs7.v
theories/Net_Proofs8.v
theories/Net_Proofs9.v
theories/Net_Proofs10.v
theories/Net_Proofs11.v
theories/Net_Props2.v
theories/Net_Proofs12.v
theories/Net_Proofs13.v
theories/Net_Proofs14.v
theories/Net_Props3.v
theories/Can_Model.v
theories/Can_Spec.v
theories/Can_Proofs1.v
theories/Can_Proofs2.v
theories/Can_Props.v
theories/Ser_Model.v
theories/Ser_Spec.v
theories/Ser_Proofs1.v
theories/Ser_Proofs2.v
theories/Ser_Proofs3.v
theories/Ser_Proofs4.v
theories/Ser_Proofs5.v
theories/Ser_Proofs6.v
theories/Ser_Props.v
theories/Ser_Proofs7.v
theories/Cse_Model.v
theories/Cse_Spec.v
theories/Cse_Proofs1.v
theories/Cse_Proofs2.v
theories/Cse_Proofs3.v
theories/Cse_Proofs4.v
theories/Cse_Props.v
theories/Lea_Model.v
theories/Lea_Props.v
theories/Df_Model.v
theories/Df_Spec.v
theories/Df_Poly.v
theories/Df_Proofs.v
theories/Df_Proofs2.v
theories/Df_Proofs3.v
theories/Df_Props.v
theories/Lst_Model.v
theories/Lst_Spec.v
theories/Lst_Proofs1.v
theories/Lst_Proofs2.v
theories/Lst_Props.v
theories/Mem_Model.v
theories/Mem_Proofs1.v
theories/Mem_Proofs2.v
theories/Mem_Proofs3.v
theories/Mem_Proofs4.v
theories/Mem_Props.v
theories/Num_Model.v
theories/Num_Spec.v
theories/Num_Proofs1.v
theories/Num_Proofs2.v
theories/Num_Proofs3.v
theories/Num_Props.v
theories/Ctx_Model.v
theories/Ctx_Spec.v
theories/Ctx_Proofs.v
theories/Ctx_Props.v
theories/Run_Model.v
theories/Run_Proofs.v
theories/Run_Props.v
theories/Ant_Model.v
theories/Ant_Spec.v
theories/Ant_Proofs.v
theories/Ant_Proofs2.v
theories/Ant_Proofs3.v
theories/Ant_Proofs4.v
theories/Ant_Props.v
theories/Reo_Model.v
theories/Reo_Spec.v
theories/Reo_Proofs.v
theories/Reo_Proofs2.v
theories/Reo_Proofs3.v
theories/Reo_Props.v
theories/Ein_Model.v
theories/Ein_Spec.v
theories/Ein_Proofs1.v
theories/Ein_Proofs2.v
theories/Ein_Proofs3.v
theories/Ein_Props.v
theories/Pop_Model.v
theories/Pop_Spec.v
theories/Pop_Proofs.v
theories/Pop_Proofs2.v
theories/Pop_Props.v
theories/Tap_Model.v
theories/Tap_Spec.v
theories/Tap_Proofs.v
theories/Tap_Props.v
theories/Bio_Model.v
theories/Bio_Spec.v
theories/Bio_Proofs1.v
theories/Bio_Proofs2.v
theories/Bio_Proofs3.v
theories/Bio_Proofs4.v
theories/Bio_Props.v
theories/Rdm_Model.v
theories/Rdm_Spec.v
theories/Rdm_Proofs.v
theories/Rdm_Proofs2.v
theories/Rdm_Props.v
theories/Blk_Model.v
theories/Blk_Spec.v
theories/Blk_Proofs.v
theories/Blk_Props.v
theories/Hug_Model.v
theories/Hug_Spec.v
theories/Hug_Proofs.v
theories/Hug_Props.v
theories/Nop_Model.v
theories/Nop_Spec.v
theories/Nop_Proofs.v
theories/Nop_Props.v
theories/Cnv_Model.v
theories/Cnv_Spec.v
theories/Cnv_Props.v
theories/Vac_Model.v
theories/Vac_Spec.v
theories/Vac_Proofs.v
theories/Vac_Props.v
theories/Rep_Model.v
theories/Rep_Spec.v
theories/Rep_Proofs.v
theories/Rep_Props.v
theories/Swc_Model.v
theories/Swc_Spec.v
theories/Swc_Props.v
theories/Ecx_Model.v
theories/Ecx_Spec.v
theories/Ecx_Props.v
theories/Ccm_Model.v
theories/Ccm_Spec.v
theories/Ccm_Props.v
theories/Eom_Model.v
theories/Eom_Spec.v
theories/Eom_Props.v

E="ETModel.v"; O="OTModel.v"; N="NTModel.v"; F="FitModel.v"; L="LTModel.v"
def m(file,id,definition,old,new,edit,claim,**k):
    return dict(id=f"M{id}",file=file,definition=definition,old=old,new=new,edit=edit,claim=claim,**k)
MUTS=[
 m(E,220,"sstep (func_op.py:213)","let! d := rnth ag i in\n      let! x := py OMul (PNum w) d in\n      let! g := py OAdd g x in","let! d := rnth ag i in\n      let! g := py OAdd g d in","weights ignored in Sum.eval's gradient","C79"),
 m(E,221,"sstep (func_op.py:213)","let! d := rnth2 ah i j in\n          let! x := py OMul (PNum w) d in py OAdd h x","let! d := rnth2 ah i j in\n          py OAdd h d","weights ignored in Sum.eval's Hessian","C79"),
 m(E,222,"ceval_hess (func_base.py:338)","let! dj := rnth dl j in\n      let! q := pquad h di dj in","let! dj := rnth dl i in\n      let! q := pquad h di dj in","gradient of the row used for the column","C79"),
 m(E,223,"ceval_hess (func_base.py:338)","let! r := pdot_right df hg in\n    let! hv := py OAdd hv r in\n    ofold","ofold","term with the inner Hessian left out","C79"),
 m(E,224,"wstep (func_op.py:93)","| Ok line => Ok (gs ++ [g], hs ++ [line], idxs ++ [Some k])","| Ok line => Ok (gs ++ [g], hs ++ [line], idxs ++ [Some i])","outer index stored in idx_list","C79"),
 m(E,225,"wrow (func_op.py:97)","end) (seq 0 i) in\n  let! h := rnth2 fh k k in","end) (seq 0 i) in\n  let! h := rnth2 fh k 0 in","diagonal block of the row read at column 0","C79"),
 m(E,226,"affine_eval (func_base.py:234)","let! hs := rmapM (rmapM (py OMul (PNum a))) bh in\n  Ok (v, gs, hs)","Ok (v, gs, bh)","Hessians not scaled","C79"),
 m(E,227,"wrap_evalP_null (func_op.py:48)","map (fun i => repeat tzero (S i)) (seq 0 (length ps))).","map (fun i => repeat tzero i) (seq 0 (length ps))).","rows one shorter","C79"),
 m(E,228,"o_Poisson (func_proba.py:38)","(rows_eval size pois_row (shift_row pois_row) (shift_row (shift_row pois_row)))","(rows_eval size pois_row (shift_row pois_row) (shift_row pois_row))","first derivative returned as second","C79"),
 m(E,229,"o_Logistic (sigmoid.py:30)","let! v2 := logis2 f in","let! v2 := logis1 f in","first derivative used as second","C79"),
 m(L,230,"e_Finite grad_like (maxlike.py:118)","let! b := py ODiv dz z in\n                                let! c := py OSub a b in","let! b := py ODiv dz y in\n                                let! c := py OSub a b in","divided by y instead of its total","C77"),
 m(L,231,"e_Finite hess_like (maxlike.py:130)","let! qz := outer2 dz i j in\n      let! H2 := log_hess hz qz z in","let! qz := outer2 der i j in\n      let! H2 := log_hess hz qz z in","product of unsummed derivatives","C77"),
 m(O,232,"objective_at (maxlike_base.py:94)","let! g := sub_regs ps g (m_reg m) in","","regularizations left out of g","C78, C80"),
 m(O,233,"flat_grad_at (maxlike_base.py:321)","let! grad2 := fg_reg ps grad1 (m_reg m) in","let grad2 := grad1 in","regularizations left out of flat_grad","C78, C80"),
 m(O,234,"fg_reg (maxlike_base.py:334)","let! grad1 := acc_val OSub grad pm gh in fg_reg","let! grad1 := acc_val OAdd grad pm gh in fg_reg","regularization gradient added","C78, C80"),
 m(O,235,"fh_reg (maxlike_base.py:370)","acc_hval OSub hess pm hh","acc_hval OAdd hess pm hh","regularization Hessian added","C78, C80"),
 m(N,236,"est_of (maxlike.py:6)","| Poisson g => let! X := attr d \"X\" in Ok (e_Poisson g X N)","| Poisson g => let! X := attr d \"X\" in Ok (e_Poisson g N X)","X and N exchanged","C80"),
 m(N,237,"est_of (maxlike.py:40)","let! Z := attr d \"Z\" in Ok (e_ZIP g s X N Z)","let! Z := attr d \"X\" in Ok (e_ZIP g s X N Z)","X read for Z","C80"),
 m(N,238,"fit_of (maxlike_base.py:420)","f_half := 1 / 2;","f_half := 1 / 3;","step multiplied by 1/3","C80"),
 m(N,239,"fit_of (maxlike_base.py:418)","model_eval := fun ps => o_eval (ml_model m) (map arr_of ps);","model_eval := fun ps => o_eval (ml_model m) (rev (map arr_of ps));","parameters reversed","C80"),
 m(N,240,"with_data (maxlike_base.py:94)","Ok (mkML e f N (ml_con m) (ml_reg m))","Ok (mkML e f N (ml_reg m) (ml_con m))","constraints used as regularizations","C80"),
 m(N,241,"fit_of (maxlike_base.py:428)","n_constraints := List.length (ml_con m) |}","n_constraints := List.length (ml_reg m) |}","number of regularizations cut off the step","C80"),
 m(F,242,"inner (maxlike_base.py:492)","if f_ge E g prev_g then ([EvTrial mult nf], Accepted nf ps g)","if f_ge E prev_g g then ([EvTrial mult nf], Accepted nf ps g)","steps that lower the objective accepted","C80, C81 finding"),
 m(F,243,"newton_loop (maxlike_base.py:504)","| Ok true => (tr0, set_hess (set_params s nps) hess, Ok true) (* 504-506 *)","| Ok true => (tr0, set_hess (set_params s ps) hess, Ok true) (* 504-506 *)","parameters before the last step stored","C80, C81"),
 m(F,244,"newton_loop (maxlike_base.py:486)","let '(tr, r) := inner verbose (s_data s) (s_params s) flat step prev_g 5 (f_one E) in","let '(tr, r) := inner verbose (s_data s) (s_params s) flat step prev_g 6 (f_one E) in","six trials: multiplier 1/32","C80, C81"),
 m(F,245,"newton_step (maxlike_base.py:428)","let! i1 := cut_index (n_constraints E) (length step) in\n  Ok (firstn i1 step, g, lgrad, lhess).","Ok (step, g, lgrad, lhess).","multipliers not cut off","C80"),
]

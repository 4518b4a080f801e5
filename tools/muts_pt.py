P="PTModel.v"; F="FitModel.v"
def m(file,id,definition,old,new,edit,claim,**k):
    return dict(id=f"M{id}",file=file,definition=definition,old=old,new=new,edit=edit,claim=claim,**k)
MUTS=[
 m(P,250,"p_prod (func_op.py:256)","(keep (length vs) except)","(keep (length vs) (firstn 1 except))","only the first excepted factor is left out","C83"),
 m(P,251,"p_prod (func_op.py:262)","| Raise TypeError => Ok (PNum 1)","| Raise TypeError => Ok (PNum 0)","empty product is 0","C83"),
 m(P,252,"p_gterm (func_op.py:271)","let! p := p_prod vs [k] in\n  let! a := rnth atoms k in\n  let! g := t_grad a ps i in","let! p := p_prod vs [] in\n  let! a := rnth atoms k in\n  let! g := t_grad a ps i in","factor k not left out of the product","C83"),
 m(P,253,"p_cross (func_op.py:278)","let! d := t_grad al ps j in\n  let! dt := ptranspose d in\n  py OMul u dt","let! d := t_grad al ps j in\n  py OMul u d","transpose forgotten","C83"),
 m(P,254,"p_cross (func_op.py:278)","let! g := t_grad ak ps i in\n  let! u := py OMul p g in\n  let! al := rnth atoms l in\n  let! d := t_grad al ps j in","let! g := t_grad ak ps j in\n  let! u := py OMul p g in\n  let! al := rnth atoms l in\n  let! d := t_grad al ps i in","i and j exchanged","C83"),
 m(P,255,"p_hstep (func_op.py:282)","let! h := p_hterm vs atoms ps i j k in\n  py OAdd hess h","Ok hess","Hessians of the factors left out","C83"),
 m(P,256,"p_hstep (func_op.py:277)","(keep (length atoms) [k]) in","(seq 0 k) in","only pairs l < k","C83"),
 m(P,257,"t_product (func_op.py:271)","let! ts := rmapM (p_gterm vs atoms ps i) (seq 0 (length atoms)) in pysum ts","let! ts := rmapM (p_gterm vs atoms ps i) (seq 1 (length atoms - 1)) in pysum ts","first factor's term missing","C83"),
 m(P,258,"pe_hess (func_op.py:296)","let! g := rnth ag i in\n  let! x := rnth gs j in\n  let! x := ptranspose x in\n  let! b := py OMul g x in\n  py OAdd a b","Ok a","second cross term missing in eval","C84"),
 m(P,259,"pe_hess (func_op.py:294)","let! x := rnth2 hs i j in\n  let! b := py OMul av x in","let! x := rnth2 hs i j in\n  let! b := py OMul v x in","running Hessian multiplied by the running value","C84"),
 m(P,260,"o_product (func_op.py:286)","atoms (PNum 1,","atoms (PNum 0,","running value starts at 0","C84"),
 m(P,261,"pe_step (func_op.py:299)","let! v' := py OMul v av in\n  Ok (v', gs', hs')","let! v' := py OMul v av in\n  Ok (av, gs', hs')","running value replaced by the factor's","C84"),
 m(P,262,"pe_step (func_op.py:298)","let! g := rnth gs i in\n                              let! q := py OMul av g in","let! g := rnth gs i in\n                              let! q := py OMul v g in","running gradient multiplied by the running value","C84"),
 m(F,263,"broyden_loop (maxlike_base.py:531)","let! nf := v_iadd flat (firstn i1 step) in","let! nf := v_iadd flat (firstn i1 jg) in","step sign","C82"),
 m(F,264,"broyden_loop (maxlike_base.py:547)","let! dgrad := v_op (f_sub E) ngrad grad in","let! dgrad := v_op (f_sub E) grad ngrad in","difference of gradients reversed","C82"),
 m(F,265,"broyden_loop (maxlike_base.py:542)","let s1 := set_params s nps in                             (* 542 *)","let s1 := s in","final parameters not stored","C82"),
 m(F,266,"broyden_try (maxlike_base.py:521)","match s_hess s with Some h => m_nrows E h =? length grad | None => false end in","match s_hess s with Some h => negb (m_nrows E h =? length grad) | None => false end in","stored Hessian reused when its size is wrong","C82"),
 m(F,267,"broyden_loop (maxlike_base.py:549)","broyden_loop verbose tol i1 s k' J' ng ngrad nf in","broyden_loop verbose tol i1 s k' J ng ngrad nf in","inverse Hessian estimate not updated","C82"),
 m(F,268,"broyden_loop (maxlike_base.py:549)","broyden_loop verbose tol i1 s k' J' ng ngrad nf in","broyden_loop verbose tol i1 s k' J' g ngrad nf in","objective of the first point kept","C82"),
 m(F,269,"broyden_loop (maxlike_base.py:545)","let! ngrad := flat_grad E (s_data s) nps y der in","let! ngrad := flat_grad E (s_data s) (s_params s) y der in","gradient taken at the initial parameters","C82"),
]

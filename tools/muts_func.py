S="FuncModel.v"; H="HeapModel.v"
def m(f,i,d,old,new,edit,claim,**k): return dict(id=f"M{i:03d}",file=f,definition=d,old=old,new=new,edit=edit,claim=claim,**k)
MUTS=[
 m(S,107,"s_affine (func_base.py:224)","let! g := f_grad f ps i in Ok (dscal a g))","let! g := f_grad f ps i in Ok (dshift (dscal a g) b))","offset added to the gradient","C26"),
 m(S,108,"s_affine eval (func_base.py:234)","map (dscal a) gs, map (map (dscal a)) hs","map (dscal a) gs, hs","Hessian of eval not scaled","C26, C31"),
 m(S,109,"compose_grad (func_base.py:296)","let! dg := f_grad g ps i in\n      Ok (ddot_left df (ddrop dg))) (enum gs) in","let! dg := f_grad g ps k in\n      Ok (ddot_left df (ddrop dg))) (enum gs) in","inner gradient with respect to the wrong index","C29"),
 m(S,110,"compose_hess (func_base.py:314)","else rmapM (fun g => let! d := f_grad g ps j in Ok (ddrop d)) gs) in","else Ok dgi) in","dg_j taken to be dg_i","C29"),
 m(S,111,"compose_hess (func_base.py:318)","(if Nat.ltb k l then let! h := f_hess f gv l k in Ok (dtrans h)","(if Nat.ltb k l then f_hess f gv l k","transposition of the stored triangle dropped","C29"),
 m(S,112,"compose_hess (func_base.py:323)","Ok (qs ++ [ddot_right df (ddrop hg)])) (enum gs) in","Ok qs) (enum gs) in","second-derivative term dropped","C29"),
 m(S,113,"quad_term (func_base.py:320)","dtrans (ddot_left (dtrans (ddot_left h dgi)) dgj)","ddot_left (dtrans (ddot_left h dgi)) dgj","last transpose dropped","C29"),
 m(S,114,"compose_eval_hess (func_base.py:343)","Ok (quad_term fhkl di dj)) (enum ggs) in\n      Ok (ddot_right df (ddrop h) :: qs)","Ok (quad_term fhkl dj di)) (enum ggs) in\n      Ok (ddot_right df (ddrop h) :: qs)","di and dj swapped in eval","C31"),
 m(S,115,"s_compose (func_base.py:252)","else if f_nullh f then compose_hess_null f gs ps i j","else if f_nullh f then Ok dzero","a linear outer function taken to have a null Hessian","C29"),
 m(S,116,"wrap_grad (func_op.py:79)","let! k := rindex (w_pm w) i in\n               let! g := f_grad f qs k in","let! k := rindex (w_pm w) i in\n               let! g := f_grad f ps k in","all parameters passed to the wrapped function","C30"),
 m(S,117,"wrap_hess (func_op.py:88)","let! h := f_hess f qs k l in Ok (w_expand w h)).","let! h := f_hess f qs k k in Ok (w_expand w h)).","second index wrong","C30"),
 m(S,118,"wrap_eval_row (func_op.py:108)","let! row := rnth hs k in\n                      let! h := rnth row l in Ok (w_expand w h)","let! row := rnth hs l in\n                      let! h := rnth row k in Ok (w_expand w h)","reads the other triangle","C31"),
 m(S,119,"w_expand (func_op.py:69)","dexpand_dim (dflip (dexpand t (w_fm w) (w_nf w)) (w_flip w)) (w_dm w) (w_nd w)","dexpand_dim (dexpand t (w_fm w) (w_nf w)) (w_dm w) (w_nd w)","feat_flip ignored","C30"),
 m(S,120,"wrap_eval (func_op.py:60)","Some k => let! g := rnth gs k in Ok (w_expand w g)\n                               end) (seq 0 n) in\n    Ok (w_expand w v, gr,","Some k => let! g := rnth gs k in Ok g\n                               end) (seq 0 n) in\n    Ok (w_expand w v, gr,","gradient not expanded when the Hessian is null","C31"),
 m(S,121,"s_collapse (func_op.py:133)","let! h := f_hess f ps i j in Ok (dsum_axes h sv sd)","let! h := f_hess f ps i j in Ok (dsum_axes h sv false)","Hessian not summed over dims","C68"),
 m(S,122,"s_sum (func_op.py:204)","let! v := f_hess a ps i j in Ok (dscal w v)","let! v := f_hess a ps i j in Ok v","weight forgotten in the Hessian","C27"),
 m(S,123,"s_sum (func_op.py:198)","Ok (dshift (dsum ts) b))","Ok (dsum ts))","offset dropped from the value","C27"),
 m(S,124,"sum_eval_step (func_op.py:215)","(dadd v (dscal w av),\n","(dadd v av,\n","weight forgotten in eval","C31"),
 m(S,125,"keep (func_op.py:260)","filter (fun i => negb (existsb (Nat.eqb i) except)) (seq 0 m)","seq 0 m","except_idx ignored","C28"),
 m(S,126,"product_hess_k (func_op.py:279)","(dtrans (nth l gj dzero)))\n             (keep m [k]))","(dtrans (nth l gj dzero)))\n             (seq 0 m))","the term l = k included","C28"),
 m(S,127,"product_hess_k (func_op.py:280)","(dtrans (nth l gj dzero))","(nth l gj dzero)","transpose dropped","C28"),
 m(S,128,"product_eval_step (func_op.py:297)","(dmul (nth i ags dzero) (dtrans (nth j gs dzero)))) (seq 0 (S i))) (seq 0 n)).","(dmul (nth j ags dzero) (dtrans (nth i gs dzero)))) (seq 0 (S i))) (seq 0 n)).","i and j swapped","C31"),
 m(S,129,"s_Log (func.py:133)","(fun v => -1 / (v * v))","(fun v => 1 / (v * v))","sign of the second derivative","C25"),
 m(S,130,"s_Logistic (sigmoid.py:30)","expit v * (1 - expit v) * (1 - 2 * expit v)","expit v * (1 - expit v) * (1 - expit v)","wrong second derivative","C25"),
 m(S,131,"diag_hess (func_base.py:41)","if eqb_idx y (n ++ d) then V (n ++ d) else 0 else 0","V (n ++ d) else 0","y axis not diagonal","C25"),
 m(S,132,"shift_row (func_proba.py:35)","match k with O => 0 | S k' => F a k' end","F a k","shift dropped","C25"),
 m(S,133,"s_LogNegativeBinomial (func_proba.py:95)","(fun m k => INR k / m - (INR k + r) / (r + m))","(fun m k => INR k / m - (INR k + r) / r)","denominator","C25"),
 m(S,134,"s_Quadratic (func.py:45)","(fun x _ _ _ => 2 * ((parr p x - u) / s) / s)","(fun x _ _ _ => 2 * ((parr p x - u) / s))","inner derivative forgotten","C25"),
 m(S,135,"s_Linear (func.py:15)","asum (pshape p) (fun k => parr p k * w)","asum (pshape p) (fun k => parr p k + w)","sum instead of product","C25"),
 m(S,136,"rindex / catch_value (func_op.py:81)","match r with Raise ValueError => Ok dzero | _ => r end","r","except ValueError removed","C27 (absent parameter), C30"),
 m(H,137,"step MkTensor (tensor.py:456)","then let s' := setwr s o a false in (mkH (mem s') (nxt s') (objs s') (tens s ++ [o]) (pars s), Ok tt)","then let s' := s in (mkH (mem s') (nxt s') (objs s') (tens s ++ [o]) (pars s), Ok tt)","write flag not cleared","C60"),
 m(H,138,"step SetAttr (tensor.py:210)","| SetAttr _ | DelAttr _ => (s, Raise NotImplementedError)","| SetAttr _ | DelAttr _ => (s, Ok tt)","attribute guard removed","C60"),
 m(H,139,"step MkParam (maxlike_base.py:30)","then let s' := setwr s o a false in (mkH (mem s') (nxt s') (objs s') (tens s) (pars s ++ [(o, m)]), Ok tt)","then let s' := setwr s m b false in (mkH (mem s') (nxt s') (objs s') (tens s) (pars s ++ [(o, m)]), Ok tt)","the mask is frozen instead of the values","C60"),
 m(H,140,"step MkTensor (tensor.py:455)","if Nat.eqb (dt a) d\n","if true || Nat.eqb (dt a) d\n","asarray never copies","C60"),
]

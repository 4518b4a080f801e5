U="TensorUfunc.v"; F="FTModel.v"; L="LTModel.v"
def m(file,id,definition,old,new,edit,claim,**k):
    return dict(id=f"M{id}",file=file,definition=definition,old=old,new=new,edit=edit,claim=claim,**k)
MUTS=[
 m(U,170,"tpow (tensor.py:772)","Tensor (np_map (fun v => v ^ a) (tv t)) (xd t) (yd t) (dm t) (xm t) (ym t).","Tensor (np_map (fun v => v ^ a) (tv t)) (xd t) (yd t) 0 (xm t) (ym t).","dim count forgotten","C71"),
 m(U,171,"np_call UPoint (tensor.py:941)","if Nat.ltb 0 (xd t) || Nat.ltb 0 (yd t) then Some (Raise InvalidOperation)\n            else","if Nat.ltb 0 (xd t) && Nat.ltb 0 (yd t) then Some (Raise InvalidOperation)\n            else","and for or: gradients accepted","C71"),
 m(U,172,"uop (tensor.py:956)","USub => Some RSUB","USub => Some SUB","array - Tensor gives Tensor - array","C70"),
 m(U,173,"tdot (tensor.py:640)","let! s' := ttranspose s in let! o' := ptranspose o in let! r := tdot_left_any s' o' in ptranspose r","let! s' := ttranspose s in let! o' := ptranspose o in tdot_left_any s' o'","result not transposed back","C72"),
 m(F,174,"grad_tensor (func_base.py:30)","match xmap with MNone => [Dots] | _ => repeat Nw x ++ [Dots] end","match xmap with MNone => [Dots] | _ => [Dots] end","no new axes for the mapped derivative axes","C75"),
 m(F,175,"hess_tensor (func_base.py:60)","Tensor a x y dim (amap_of xmap x) (amap_of ymap y).","Tensor a x y dim (amap_of xmap x) [].","y map forgotten","C75"),
 m(F,176,"t_affine (func_base.py:222)","let! h := t_hess f ps i j in py OMul (PNum a) h","let! h := t_hess f ps i j in py OMul (PNum (a * a)) h","scale squared in the second derivative","C75"),
 m(F,177,"tcompose_grad (func_base.py:296)","let! dg := pdrop dg in\n      pdot_left df dg","pdot_left df dg","drop_dim left out","C75"),
 m(F,178,"tcompose_hess (func_base.py:323)","let! r := pdot_right df hg in\n    py OAdd hv r","let! r := pdot_right df hg in\n    py OSub hv r","inner second derivative subtracted","C75"),
 m(F,179,"pquad (func_base.py:320)","let! a := pdot_left a dj in ptranspose a.","let! a := pdot_left a di in ptranspose a.","first gradient used twice","C75"),
 m(F,180,"t_compose (func_base.py:258)","(fun ps i j => if t_nullg f then Ok tzero\n                 else if t_nullh f then tcompose_hess_null","(fun ps i j => if t_nullg f then Ok tzero\n                 else if t_nullh f then fun f gs ps i j => Ok tzero) ; if false then tcompose_hess_null","(placeholder)","C75") if False else
 m(F,180,"t_compose (func_base.py:258)","else if t_nullh f then tcompose_hess_null f gs ps i j","else if t_nullh f then Ok tzero","linear outer function: second derivative zero","C75"),
 m(F,181,"tw_expand (func_op.py:69)","let! v := pflip v (w_flip w) in\n","","feat_flip ignored","C75"),
 m(F,182,"t_wrap (func_op.py:80)","let! k := rindex (w_pm w) i in\n                let! g := t_grad f qs k in tw_expand w g","let! k := rindex (w_pm w) i in\n                let! g := t_grad f qs i in tw_expand w g","outer index passed to the inner function","C75"),
 m(F,183,"t_sum (func_op.py:180)","let! v := t_grad a ps i in py OMul (PNum w) v","t_grad a ps i","weights ignored in the gradient","C75"),
 m(F,184,"t_Log (func.py:131)","let! v := py ODiv (PNum (-1)) q in","let! v := py ODiv (PNum 1) q in","sign","C75"),
 m(F,185,"logis2 (sigmoid.py:32)","let! c := py OSub (PNum 1) b in py OMul a c","let! c := py OSub b (PNum 1) in py OMul a c","sign","C75"),
 m(F,186,"t_ArcTan (sigmoid.py:50)","let! a := onepsq x in let! q := py_sq a in\n                 let! v := py ODiv u q in","let! a := onepsq x in let q := a in\n                 let! v := py ODiv u q in","square of the denominator forgotten","C75"),
 m(F,187,"t_Vector (func.py:96)","rmap PT (grad_tensor (PArr a) ps i MNone 0)","rmap PT (grad_tensor (PArr a) ps i MTrue 0)","diagonal derivative for a sum","C75"),
 m(F,188,"t_rows (func_proba.py:20)","rmap PT (hess_tensor (PArr (row_array a size ddF)) ps i j MTrue MTrue 1))","rmap PT (hess_tensor (PArr (row_array a size ddF)) ps i j MTrue MTrue 0))","dim axis not declared in the hessian","C75"),
 m(L,189,"grad_delta (maxlike.py:19)","fun d => let! w := py OMul d delta in ssum w","fun d => let! w := py OMul d delta in psum w false","result keeps no dim sum","C76") if False else
 m(L,189,"hess_delta (maxlike.py:26)","let! b := py OMul q delta2 in","let! b := py OMul q delta in","delta for delta2","C76"),
 m(L,190,"outer2 (maxlike.py:27)","let! tj := ptranspose dj in py OMul di tj","let! tj := ptranspose di in py OMul di tj","der[i] twice","C76"),
 m(L,191,"e_Poisson like (maxlike.py:12)","let! b := py OMul N e in\n            let! c := py OSub a b in\n            let! x1","let! b := py OMul N e in\n            let! c := py OAdd a b in\n            let! x1","sign","C76"),
 m(L,192,"zip_w (maxlike.py:47)","let! w := py OMul (PNum (s - 1)) e in","let! w := py OMul (PNum s) e in","s for s - 1","C76"),
 m(L,193,"e_Logistic like (maxlike.py:72)","let! s := ssum c in pneg s","ssum c","negation forgotten","C76"),
 m(L,194,"e_NegBin grad (maxlike.py:215)","let! u := py OAdd m (PNum r) in\n                let! b := py ODiv km u in","let! u := py OAdd m (PNum r) in\n                let! b := py ODiv k u in","factor m missing","C76"),
 m(L,195,"log_hess (maxlike.py:187)","let! a := py ODiv q y in let! b := py OSub h a in py ODiv b y.","let! a := py ODiv q y in py OSub h a.","second division forgotten","C76"),
 m(L,196,"e_NormFinite grad (maxlike.py:172)","let! a := py OMul N d in let! b := py ODiv a y in ssum b","let! a := py OMul N d in ssum a","division by y forgotten","C76"),
 m(L,197,"triangle (maxlike.py:25)","rmapM (fun i => rmapM (block i) (seq 0 (S i))) (seq 0 n).","rmapM (fun i => rmapM (block i) (seq 0 i)) (seq 0 n).","diagonal blocks missing","C76"),
 m(L,198,"e_ZIP hess (maxlike.py:59)","let! u := py OAdd (PNum 1) u in\n                     let! delta2","let! u := py OSub (PNum 1) u in\n                     let! delta2","sign in delta2","C76"),
]

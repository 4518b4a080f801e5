O="OTModel.v"; L="LTModel.v"
def m(file,id,definition,old,new,edit,claim,**k):
    return dict(id=f"M{id}",file=file,definition=definition,old=old,new=new,edit=edit,claim=claim,**k)
MUTS=[
 m(O,199,"sub_regs (maxlike_base.py:101)","let! g' := py OSub g v in sub_regs ps g' r","let! g' := py OAdd g v in sub_regs ps g' r","regularization added instead of subtracted in g","C78"),
 m(O,200,"objective (maxlike_base.py:102)","let! r := py ODiv g n in pyfloat r.","let! r := py OMul g n in pyfloat r.","multiplied by the total of N","C78"),
 m(O,201,"fg_reg (maxlike_base.py:338)","let! grad1 := acc_val OSub grad pm gh in fg_reg ps grad1 r","let! grad1 := acc_val OAdd grad pm gh in fg_reg ps grad1 r","gradient of the regularization added","C78"),
 m(O,202,"fh_reg (maxlike_base.py:375)","let! hess1 := acc_hval OSub hess pm hh (tri_pairs (length pm)) in fh_reg ps hess1 r","fh_reg ps hess r","second derivatives of the regularizations forgotten","C78"),
 m(O,203,"acc_val (maxlike_base.py:331)","let! g := upd_val o grad k b in acc_val o g pm' blocks'","let! g := upd_val o grad (length pm') b in acc_val o g pm' blocks'","counts the arguments instead of using param_map","C78"),
 m(O,204,"fg_con (maxlike_base.py:330)","let! gg0 := rmapM (py OMul (PNum 0)) gg in\n      let! grad1 := acc_val OAdd grad pm gg0 in","let! grad1 := acc_val OAdd grad pm gg in","gamma forgotten in flat_grad","C78"),
 m(O,205,"free_values (maxlike_base.py:340)","let! a := values v in np_bool a (p_shape p) (map negb (p_mask p)).","let! a := values v in np_bool a (p_shape p) (p_mask p).","mask not negated in flat_grad","C78"),
 m(O,206,"cut_value (maxlike_base.py:391)","(outer_mask (p_mask pi) (p_mask pj))","(outer_mask (p_mask pj) (p_mask pi))","masks of the two parameters exchanged","C78"),
 m(O,207,"flat_hess_t full (maxlike_base.py:398)","transpose R 0 (p_count (nth i params (mkParam [] [] []))) (blk j i)","blk j i","upper blocks not transposed","C78"),
 m(O,208,"np_iadd (maxlike_base.py:366)","let! c := np_bin Rplus a b in","let! c := np_bin Rminus a b in","derivative of the constraint subtracted","C78"),
 m(O,209,"fh_con (maxlike_base.py:356)","let! hc := acc_con (map (fun p => mkA (p_shape p) (fun _ => 0)) params) pm gg in","let! hc := acc_con (map (fun p => mkA (p_shape p) (fun _ => 1)) params) pm gg in","ones_like for zeros_like","C78"),
 m(O,210,"flat_hess_t corner (maxlike_base.py:413)","row ++ repeat 0 (length (m_con m))","row ++ repeat 1 (length (m_con m))","corner of ones","C78"),
 m(O,211,"t_Linear call (func.py:17)","let! v := py OMul p (PArr (np_scalar w)) in sum_all v","let! v := py OAdd p (PArr (np_scalar w)) in sum_all v","weights added","C78"),
 m(O,212,"t_Linear grad (func.py:21)","(fun _ => w * 1)","(fun _ => 1)","weight dropped in the derivative","C78"),
 m(O,213,"t_Quadratic grad (func.py:44)","(np_map (fun v => 2 * v / s) z)","(np_map (fun v => 2 * v) z)","division by s dropped","C78"),
 m(O,214,"t_Quadratic hess (func.py:49)","(fun v => 2 * v / s / s)","(fun v => 2 * v / s)","one division by s dropped","C78"),
 m(O,215,"t_Quadratic grad (func.py:44)","ps i MTrue 0 in ssum (PT t))\n  (fun ps i j =>","ps i MTrue 0 in Ok (PT t))\n  (fun ps i j =>",".sum() dropped","C78"),
 m(O,216,"quad_z (func.py:38)","(fun v => (v - u) / s)","(fun v => (v + u) / s)","u added","C78"),
 m(O,217,"args_at (maxlike_base.py:336)","rmapM (rnth ps) pm.","Ok (firstn (length pm) ps).","first parameters instead of those of param_map","C78"),
 m(O,218,"acc_hval (maxlike_base.py:375)","let! jdx := rnth pm j in","let! jdx := Ok j in","position instead of param_map[j]","C78"),
 m(O,219,"flat_hess_t (maxlike_base.py:401)","np_bool d (p_shape p) (map negb (p_mask p))) (combine rowc params)) hc","Ok (entries d)) (combine rowc params)) hc","border not restricted to the free entries","C78"),
]

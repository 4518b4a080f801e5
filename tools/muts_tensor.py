S="TensorModel.v"; N="NDArray.v"
def m(f,i,d,old,new,edit,claim,**k): return dict(id=f"M{i:03d}",file=f,definition=d,old=old,new=new,edit=edit,claim=claim,**k)
MUTS=[
 m(S,141,"toarray (tensor.py:481)","let! arr := arr_expand_diag (tv t) 0 p (xm t) in\n  arr_expand_diag arr (xd t) p (ym t).","arr_expand_diag (tv t) 0 p (xm t).","y map not expanded","C51"),
 m(S,142,"tbin_num (tensor.py:807)","| ADD | SUB => Ok s\n    | RSUB => tneg s\n    | MUL | RDIV","| ADD | SUB | RSUB => Ok s\n    | MUL | RDIV","0 - t returns t","C51"),
 m(S,143,"tbin_num (tensor.py:823)","if additive op then\n    let! a := toarray s in","if additive op then\n    let! a := Ok (tv s) in","a number is added to the stored values only","C51"),
 m(S,144,"tneg (tensor.py:766)","Tensor (np_map Ropp (tv t)) (xd t) (yd t) (dm t) (xm t) (ym t)","Tensor (np_map Ropp (tv t)) (xd t) (yd t) (dm t) [] []","maps dropped by negation","C51"),
 m(S,145,"tdrop (tensor.py:626)","Tensor (tv t) (xd t) (yd t) 0 (xm t) (ym t).","Tensor (tv t) (yd t) (xd t) 0 (xm t) (ym t).","x and y swapped","C51"),
 m(S,146,"tbin_tensor (tensor.py:870)","if map_eqb (xm s) (xm o) && map_eqb (ym s) (ym o) then","if map_eqb (xm s) (xm o) then","y maps not compared","C52"),
 m(S,147,"tbin_tensor (tensor.py:884)","SUB => let! o' := tneg o in Ok (PG (mkG x y n dim [IT s; IT o']))","SUB => let! o' := tneg o in Ok (PG (mkG x y n dim [IT s; IT o]))","negation forgotten","C52"),
 m(S,148,"tbin_tensor (tensor.py:900)","then arr_take_diag (tv o) 0 po (xm s) else Ok (tv o) in","then Ok (tv o) else Ok (tv o) in","no diagonal extraction on the right operand","C53"),
 m(S,149,"tbin_tensor (tensor.py:908)","then arr_take_diag (tv s) 0 p (xm o) else Ok (tv s) in\n            Ok (xm o, l, tv o) in","then arr_take_diag (tv s) 0 p (xm o) else Ok (tv s) in\n            Ok (xm s, l, tv o) in","the map of the right operand is lost","C53"),
 m(S,150,"arr_take_diag (tensor.py:51)","let! arr := np_swapaxes arr (ndim arr - 1) (p + f - 1) in","let! arr := np_swapaxes arr (ndim arr - 1) (p + f) in","off by one","C53"),
 m(S,151,"sum_swap_x (tensor.py:505)","if mem f sv then let! arr := np_swapaxes arr k (p + f) in sum_swap_x (S k) p sv arr r","if mem f sv then let! arr := Ok arr in sum_swap_x (S k) p sv arr r","mapped features summed away","C54"),
 m(S,152,"sum_swap_y (tensor.py:513)","sum_swap_y (S k) x p sv mx (cross ++ [(l, k)]) arr r","sum_swap_y (S k) x p sv mx cross arr r","cross map never filled","C54"),
 m(S,153,"tsum (tensor.py:534)","Tensor val (xd t) (yd t) (if sum_dim then 0 else dm t) [] []","Tensor val (xd t) (yd t) (if sum_dim then dm t else 0) [] []","dim count inverted","C54"),
 m(S,154,"texpand (tensor.py:571)","map (fun k => p + k)%nat (argsort where_) ++ seq pn (dm t)","map (fun k => p + k)%nat where_ ++ seq pn (dm t)","argsort forgotten","C55"),
 m(S,155,"texpand (tensor.py:568)","let! my := compose_mappings (map Some where_) (ym t) in","let! my := Ok (ym t) in","y map not renumbered","C55"),
 m(S,156,"tflip (tensor.py:606)","let p := if dim then (p + nn t)%nat else p in","let p := p in","flips features when dim is asked","C56"),
 m(S,157,"tflip (tensor.py:600)","then Raise NotImplementedError\n","then Ok t\n","mapped features silently ignored","C56"),
 m(S,158,"ttranspose (tensor.py:623)","Tensor v (yd t) (xd t) (dm t) (ym t) (xm t).","Tensor v (yd t) (xd t) (dm t) (xm t) (ym t).","maps not exchanged","C57"),
 m(S,159,"tdot_left_core (tensor.py:706)","| _ => let! m := compose_mappings (xm s) (xm o) in Ok (val, m)","| _ => Ok (val, xm o)","maps not composed","C58"),
 m(S,160,"tdot_left_core (tensor.py:699)","let! val := arr_swapaxes val (xd o) (xd o + p) (xm s) in","","swap back dropped","C58"),
 m(S,161,"tdot_left (tensor.py:683)","then let! s' := ttranspose s in\n       (* self","then let s' := s in\n       (* self","transposition dropped","C58"),
 m(S,162,"tdot_right (tensor.py:756)","let! my := compose_mappings (xm s) (ym o) in\n  let! val := np_sum","let! my := compose_mappings (xm s) (xm o) in\n  let! val := np_sum","x map used for y","C59"),
 m(S,163,"tdot_right (tensor.py:714)","if is_zero0 (tv o) then Ok (PNum 0) else\n  let dim","if is_zero0 (tv o) then Ok (PNum 1) else\n  let dim","zero shortcut wrong","C59"),
 m(S,164,"arr_swapaxes_cross (tensor.py:95)","ones_at (ndim arr) l (p + k) n) in\n              np_bin Rmult arr e","ones_at (ndim arr) l (p + k) n) in\n              Ok arr","cross diagonal not applied","C59"),
 m(S,165,"absorb (tensor.py:381)","| PT t => Ok (IT t :: r)\n","| PT t => Ok [IT t]\n","remaining elements dropped","C52, C69"),
 m(S,166,"gbin1 (tensor.py:392)","| SUB => absorb (els g) o SUB (item_neg o)","| SUB => absorb (els g) o SUB (Ok o)","appended without negation","C52, C69"),
 m(S,167,"gsum (tensor.py:258)","let factor sh := INR size / INR (prodn sh) in","let factor sh := INR size in","factor not divided by the element's own size","C54"),
 m(S,168,"tbin GenericTensor (tensor.py:785)","| SUB => rmap PG (gbin1 h (IT s) RSUB)","| SUB => rmap PG (gbin1 h (IT s) SUB)","subtraction reversed","C52, C69"),
 m(N,169,"np_diagonal","","","","") if False else
 m(S,169,"reshape_idx (tensor.py:970)","repeat (if Nat.ltb 0 (dm t) then Sl else Nw) d.","repeat (if Nat.ltb 0 (nn t) then Sl else Nw) d.","dim axes follow the features","C52, C53"),
]

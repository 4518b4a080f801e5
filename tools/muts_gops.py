T="TensorModel.v"
NOTE="only the files C87 and C88 depend on were rebuilt"
def m(file,id,definition,old,new,edit,claim,**k):
    return dict(file=file,id=id,definition=definition,old=old,new=new,edit=edit,claim=claim,targets=["theories/Props_GOps.vo","theories/Props_GMul.vo","theories/Props_GNp.vo","theories/Props_GDims.vo"],note=NOTE,**k)
MUTS=[
 m(T,"M278","gtranspose (tensor.py:296)","let! es := gmap ttranspose g in Ok (mkG (gy g) (gx g) (gn g) (gd g) es).","let! es := gmap ttranspose g in Ok (mkG (gx g) (gy g) (gn g) (gd g) es).","x_dim and y_dim not swapped","C87"),
 m(T,"M279","gdrop (tensor.py:301)","Ok (mkG (gx g) (gy g) (gn g + gd g) 0 es).","Ok (mkG (gx g) (gy g) (gn g) 0 es).","n not increased by dim","C87"),
 m(T,"M280","gflip (tensor.py:291)","let! es := gmap (fun t => tflip t where_ dim) g in","let! es := gmap (fun t => tflip t where_ false) g in","dim not passed on","C87"),
 m(T,"M281","gexpand (tensor.py:284)","(if dim then newsize else gd g) es).","(gd g) es).","dim count not updated","C87"),
 m(T,"M282","gtoarray (tensor.py:229)","np_bin Rplus acc a) (els g) (np_scalar 0).","np_bin Rmult acc a) (els g) (np_scalar 0).","product instead of sum","C87"),
 m(T,"M283","gneg / gmap (tensor.py:284-304)","let! es := gmap tdrop g in","let! es := gmap (fun t => Ok t) g in","elements keep their dim axes","C87"),
 m(T,"M284","gbin1 (tensor.py:401)","| MUL | DIV => rmapM (fun e => let! v := item_bin e o op in as_item v) (els g)","| MUL | DIV => match els g with [] => Ok [] | e :: r => let! v := item_bin e o op in let! i := as_item v in Ok (i :: r) end","only the first element is multiplied","C88"),
 m(T,"M285","gbin_g (tensor.py:416)","ofold (fun acc e' => gbin1 acc e' ADD) (els ge) acc) (els h)","ofold (fun acc e' => gbin1 acc e' ADD) (els ge) g) (els h)","products added to g instead of to the accumulator","C88"),
 m("FTModel.v","M286","reflected (tensor.py:195)","OSub => RSUB","OSub => SUB","c - g computed as g - c","C88"),
 m(T,"M287","gbin1 (tensor.py:390)","| RSUB => let! es := rmapM item_neg (els g) in absorb es o ADD (Ok o)","| RSUB => absorb (els g) o RSUB (Ok o)","only the absorbing element negated","C88"),
 m(T,"M288","tbin (tensor.py:780)","| SUB => rmap PG (gbin1 h (IT s) RSUB)\n            | _ => Raise InvalidOperation","| SUB => rmap PG (gbin1 h (IT s) RSUB)\n            | _ => rmap PG (gbin1 h (IT s) DIV)","t / g computed as g / t instead of raising","C88"),
 m(T,"M289","tbin_num (tensor.py:816)","| DIV => Raise ZeroDivisionError\n    end","| DIV => Ok s\n    end","division by 0 returns the tensor unchanged","C88"),
 m(T,"M290","gbin1 (tensor.py:386)","| SUB => absorb (els g) o SUB (item_neg o)","| SUB => absorb (els g) o ADD (item_neg o)","g - a adds the array when it is absorbed","C89"),
 m(T,"M291","absorb (tensor.py:377)","| PT t => Ok (IT t :: r)","| PT t => let! r' := absorb r o op app in Ok (IT t :: r')","missing break: every mergeable element absorbs the array","C88, C89"),
 m(T,"M292","tbin_arr (tensor.py:796)","| _ => let! o := Tensor a 0 0 0 [] [] in tbin_tensor s o op","| _ => let! o := Tensor a 1 0 0 [] [] in tbin_tensor s o op","first axis of an array taken as a parameter axis","C89"),
 m(T,"M293","gsum (tensor.py:279)","let! w := tbin_num u (factor sh) MUL in Ok (IT w)","let! w := tbin_num u 1 MUL in Ok (IT w)","size/el_size dropped from partial sums","C90"),
 m(T,"M294","gsum (tensor.py:282)","Ok (PG (mkG (gx g) (gy g) (gn g) 0 es)).","Ok (PG (mkG (gx g) (gy g) (gn g) (gd g) es)).","dim not reset","C90"),
 m(T,"M295","gsum (tensor.py:264)","let factor sh := INR size / INR (prodn sh) in","let factor sh := INR (prodn sh) / INR size in","factor inverted","C90"),
]

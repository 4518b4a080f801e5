F="FTModel.v"; E="ETModel.v"; N="FTNegBin.v"; U="FuncModel.v"; T="TensorModel.v"
def m(file,id,definition,old,new,edit,claim,**k):
    return dict(id=f"M{id}",file=file,definition=definition,old=old,new=new,edit=edit,claim=claim,**k)
MUTS=[
 m(N,270,"t_NegativeBinomial (func_proba.py:111)","t_compose t_Exp (t_LogNegativeBinomial gammaln size r :: nil)","t_compose (t_LogNegativeBinomial gammaln size r) (t_Exp :: nil)","functions composed in the other order","C86"),
 m(N,271,"o_NegativeBinomial (func_proba.py:111)","ETModel.o_compose ETModel.o_Exp (ETModel.o_LogNegativeBinomial gammaln size r :: nil)","ETModel.o_LogNegativeBinomial gammaln size r","Exp forgotten in the object with eval","C86"),
 m(U,272,"lnb_row (func_proba.py:70)","- gammaln r + r * ln r","- gammaln r","term r ln r forgotten (LogNegativeBinomial)","C86"),
 m(E,273,"o_Exp (func.py:117)","let! g := grad_tensor (PT f) ps 0 MTrue (dm f) in","let! g := grad_tensor (PT f) ps 0 MTrue 0 in","dim not passed on in eval","C79/C86"),
 m(F,274,"t_Exp (func.py:109)","(fun ps i => let! f := exp_tensor ps in rmap PT (grad_tensor (PT f) ps i MTrue (dm f)))","(fun ps i => let! f := exp_tensor ps in rmap PT (grad_tensor (PT f) ps i MTrue 0))","dim not passed on in grad","C86"),
 m(F,275,"t_Exp (func.py:113)","rmap PT (hess_tensor (PT f) ps i j MTrue MTrue (dm f)))\n  false false.","rmap PT (hess_tensor (PT f) ps i j MTrue MTrue 0))\n  false false.","dim not passed on in hess","C86"),
 m(F,276,"tcompose_hess (func_op.py:320)","let! a := pdot_left a dj in ptranspose a.","let! a := pdot_left a di in ptranspose a.","second contraction with the wrong gradient","C73/C85"),
 m(E,277,"o_compose","let! x := pdot_left","let! x := pdot_left","placeholder","C85",count=-1),
]
MUTS=[x for x in MUTS if x["id"]!="M277"]

T="FTTwoSided.v"
def m(file,id,definition,old,new,edit,claim,**k):
    return dict(file=file,id=id,definition=definition,old=old,new=new,edit=edit,claim=claim,targets=["theories/Props_Sided.vo"],note="only the files C91 depends on were rebuilt",**k)
def m2(id,definition,old,new,edit):
    return dict(file="FTTwoSidedFit.v",id=id,definition=definition,old=old,new=new,edit=edit,claim="C92",targets=["theories/Props_SidedFit.vo","theories/Props_SidedFit2.vo"],note="only the files C92 depends on were rebuilt")
MUTS=[
 m(T,"M296","wji (tests.py:344)","Definition wji : wmap := mkW [0; 1; 2]%nat [1; 0]%nat","Definition wji : wmap := mkW [0; 1; 2]%nat [0; 1]%nat","features of the second half not swapped","C91"),
 m(T,"M297","both (tests.py:344)","(1, t_wrap wji (rate (-1)))] 0.","(1, t_wrap wji (rate 1))] 0.","h added in both halves","C91"),
 m(T,"M298","side (tests.py:334)","(-1, t_wrap wb t_X); (sg, t_wrap wh t_Scalar)] 0.","(1, t_wrap wb t_X); (sg, t_wrap wh t_Scalar)] 0.","b added instead of subtracted","C91"),
 m(T,"M299","two_sided (tests.py:346)","Definition two_sided : tfun := t_compose t_Log (both :: nil).","Definition two_sided : tfun := both.","logarithm dropped","C91"),
 m2("M300","sideo (tests.py:334)","(-1, o_wrap wb o_X); (sg, o_wrap wh o_Scalar)] 0.","(1, o_wrap wb o_X); (sg, o_wrap wh o_Scalar)] 0.","b added instead of subtracted in the object with eval"),
 m2("M301","sum_ab (tests.py:347)","mkTerm [0; 1]%nat (t_Linear [1; 1]) arrays","mkTerm [0; 1]%nat (t_Linear [1; -1]) arrays","constraint on a - b"),
 m2("M302","sided_mle (tests.py:347)","two_sidedo (registration sum_ab :: nil) []","two_sidedo [] []","constraint not registered"),
 m2("M303","sum_ab (tests.py:347)","mkTerm [0; 1]%nat (t_Linear [1; 1]) arrays","mkTerm [0; 2]%nat (t_Linear [1; 1]) arrays","constraint on a and h"),
 m2("M304","rateo (tests.py:343)","o_compose o_Exp (sideo sg :: nil)","o_compose o_Exp (sideo 1 :: nil)","h with the same sign in both halves"),
]

def m(F,i,d,o,n,e,c,**k): return dict(id=f"M{i:03d}",file=F,definition=d,old=o,new=n,edit=e,claim=c,**k)
T="TennisModel.v"; K="MarkovModel.v"
MUTS=[
 m(T,51,"game (tennis.py:19)","20 * p ^ 5 * q ^ 3 / (1 - 2 * p * q)]","20 * p ^ 4 * q ^ 3 / (1 - 2 * p * q)]","wrong power at deuce","C38, C39, C64"),
 m(T,52,"game_grad (tennis.py:28)","4 * (4 - 5 * p) * p ^ 3; 20","4 * (5 - 4 * p) * p ^ 3; 20","swapped coefficients","C39"),
 m(T,53,"tiebreak (tennis.py:62)","210 * p ^ 7 * q ^ 4;\n","120 * p ^ 7 * q ^ 4;\n","wrong binomial","C38, C39, C64"),
 m(T,54,"tset (tennis.py:107)","set_entries (set_clip p) t","set_entries (Rmin p (1 - set_eps)) t","lower clip dropped","C38"),
 m(T,55,"tset_hess (tennis.py:158)","3024 * (1 - 2 * p) * q ^ 5 * p ^ 5])\n  | 1%nat, 1%nat","3024 * (2 - p) * q ^ 5 * p ^ 5])\n  | 1%nat, 1%nat","wrong mixed derivative","C39"),
 m(T,56,"stack_swap (tennis.py:20)","stack0 es p (swap_ends idx)","stack0 es p idx","swapaxes dropped","C65"),
 m(K,57,"mm_cells (matrix.py:84)","let x := (size - idx - 1)%nat in","let x := idx in","rows visited in ascending order: moved mass is moved again","C35"),
 m(K,58,"mm_cell (matrix.py:86)","let x_ := Nat.min (x + 1) (size - 1) in\n  let y_ := Nat.min (y + 1) (size - 1) in\n  let f1 := skew x y in\n  let f2 := skew y x in\n  let m := M (x, y) in","let x_ := (x + 1)%nat in\n  let y_ := Nat.min (y + 1) (size - 1) in\n  let f1 := skew x y in\n  let f2 := skew y x in\n  let m := M (x, y) in","reflection at the border dropped: mass leaves the grid","C34, C35"),
 m(K,59,"mm_cell (matrix.py:94)","addto M (x, y) (- ((s1 * f1 + s2 * f2) * m)).","addto M (x, y) (- ((s1 + s2) * m)).","skew forgotten in the outflow","C34, C35"),
 m(K,60,"mm_cell6 (matrix.py:137)","s1 * f1 * hm11 + 2 * f1 * dm1) in","s1 * f1 * hm11 + f1 * dm1) in","factor 2 dropped in H11","C36"),
 m(K,61,"mm_eval (matrix.py:161)","[[fun c => sH11 S c / (n * n)]","[[fun c => sH11 S c / n]","H11 divided by steps once","C36"),
 m(K,62,"mv_sweep (matrix.py:207)","addto1 M (2 * size - 2) e.","M.","mass moving up from the top position is lost","C34, C35"),
 m(K,63,"mv_cell (matrix.py:201)","let f2 := skew (2 * size - 2 - x)%nat in\n  let m := M x in","let f2 := skew (x + (size - size))%nat in\n  let m := M x in","f2 reads skew[x]","C35, C36"),
 m(K,64,"mv_cell6 (matrix.py:265)","(- (h12 * (s1 * f1 + s2 * f2) + d2 * f1 + d1 * f2))","(- (h12 * (s1 * f1 + s2 * f2) + d1 * f1 + d2 * f2))","the MarkovMatrix mistake copied to MarkovVector","C36"),
 m(K,65,"filt (matrix.py:34)","Z.sgn (x * Z.of_nat i + y * Z.of_nat j + c)","Z.sgn (x * Z.of_nat j + y * Z.of_nat i + c)","x and y swapped","C37"),
 m(K,66,"collapse_grad (matrix.py:48)","1 * b2R (filt cd (fst c) (snd c))","1 * b2R (filt cd (snd c) (fst c))","transposed gradient","C37"),
 m(K,67,"rate_ok (matrix.py:78)","if Rlt_dec (s1 + s2) 1 then Ok tt else Raise AssertionError","if Rle_dec (s1 + s2) 1 then Ok tt else Raise AssertionError","<= instead of <","C34"),
 m(K,68,"mv_init (matrix.py:194)","if Nat.eqb x (size - 1) then 1 else 0","if Nat.eqb x size then 1 else 0","start off by one","C35"),
]

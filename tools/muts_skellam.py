S="SkellamModel.v"; P="PrepModel.v"
def m(f,i,d,old,new,edit,claim,**k): return dict(id=f"M{i:03d}",file=f,definition=d,old=old,new=new,edit=edit,claim=claim,**k)
MUTS=[
 m(S,78,"poisson_vector (skellam.py:9)","let dcurve := -1 :: zip2 Rminus (removelast curve) (tl curve) in","let dcurve := 0 :: zip2 Rminus (removelast curve) (tl curve) in","first derivative entry 0","C43"),
 m(S,79,"poisson_vector (skellam.py:9)","zip2 Rminus (removelast curve) (tl curve)","zip2 Rminus (tl curve) (removelast curve)","difference with the wrong sign","C43"),
 m(S,80,"poisson_mid_cdf (skellam.py:31)","Ok (lsum (removelast p) + / 2 * last p 0, lsum (removelast d) + / 2 * last d 0)","Ok (lsum p + / 2 * last p 0, lsum (removelast d) + / 2 * last d 0)","last entry counted one and a half times","C43"),
 m(S,81,"skellam_frame (skellam.py:18)","Ok [outer pa pb; outer da pb; outer pa db]","Ok [outer pa pb; outer pa db; outer da pb]","derivatives swapped","C45"),
 m(S,82,"skellam_cdf (skellam.py:44)","if inverse then (n <=? d)%Z else (d <=? n)%Z","if inverse then (n <? d)%Z else (d <=? n)%Z","strict comparison when inverse","C45, C67"),
 m(S,83,"skellam_cdf_pair (skellam.py:54)","map (mask_sum (fun d => (d <? n)%Z)) fr, map (mask_sum (fun d => (n <? d)%Z)) fr","map (mask_sum (fun d => (d <? n)%Z)) fr, map (mask_sum (fun d => (d <? n)%Z)) fr","both masks the same","C45, C46"),
 m(S,84,"tol2size (skellam.py:36)","Ok (Rtrunc (- ndtri tol * lsum (map sqrt args) + lsum args) + 1)%Z","Ok (Rtrunc (- ndtri tol * lsum (map sqrt args)) + 1)%Z","mean left out of the size","C67, C45"),
 m(S,85,"proot_loop (skellam.py:84)","if Rlt_dec (Rabs tol) (Rabs e) then\n    match fuel with\n    | O => None\n    | S fuel' =>\n        match (let! (f, df) := poisson_cdf a n in","if Rlt_dec (Rabs tol) e then\n    match fuel with\n    | O => None\n    | S fuel' =>\n        match (let! (f, df) := poisson_cdf a n in","the signed error is tested: a negative one stops the iteration","C44"),
 m(S,86,"proot_loop (skellam.py:100)","if (50 <? S count)%nat then Some (Ok (VClass ConvergenceError","if (50 <=? S count)%nat then Some (Ok (VClass ConvergenceError","one iteration fewer","C44"),
 m(S,87,"poisson_cdf_root (skellam.py:76)","if Rle_dec 1 target then Some (Ok (VClass ValueError, (O, O)))","if Rlt_dec 1 target then Some (Ok (VClass ValueError, (O, O)))","target 1 accepted","C44"),
 m(S,88,"sroot_inner (skellam.py:151)","let na := Rmax (a + sf * st1) floor_ in\n        let nb","let na := a + sf * st1 in\n        let nb","floor dropped for a","C46"),
 m(S,89,"sroot_loop (skellam.py:141)","let e := norm2 (t1 - s1) (t2 - s2) in\n               let! (st1, st2)","let e := Rabs (t1 - s1) in\n               let! (st1, st2)","only the first error counts","C46"),
 m(S,90,"skellam_cdf_root (skellam.py:120)","if Rle_dec 1 (t1 + t2) then Some (Raise ValueError)","if Rle_dec 2 (t1 + t2) then Some (Raise ValueError)","wrong validity bound","C46"),
 m(S,91,"croot_loop (skellam.py:202)","else croot_loop fuel' b target tol pb a' e' count","else croot_loop fuel' b target tol pb a' e' (S count)","count incremented: the loop becomes bounded","C47 (never returns)"),
 m(S,92,"half_sum (skellam.py:187)","mask_sum (fun d => (d <? 0)%Z) v + / 2 * mask_sum (fun d => (d =? 0)%Z) v","mask_sum (fun d => (d <=? 0)%Z) v + / 2 * mask_sum (fun d => (d =? 0)%Z) v","diagonal counted one and a half times","C47"),
 m(S,93,"conditional_skellam_cdf_root (skellam.py:176)","let! size := tol2size (/ 2 * tol) [b] in","let! size := tol2size (2 * tol) [b] in","tolerance doubled instead of halved","C47"),
 m(P,94,"axes (preprocessing.py:40)","Some extra => sorted (dedup (a ++ extra))","Some extra => sorted (a ++ extra)","set() forgotten: repeated labels","C48, C49"),
 m(P,95,"from_product (preprocessing.py:42)","| a :: r => flat_map (fun x => map (cons x) (from_product r)) a","| a :: r => map (fun xy => snd xy :: fst xy) (list_prod (from_product r) a)","first level fastest","C48, C49"),
 m(P,96,"groupby_agg (preprocessing.py:51)","(k, f (group rows k))) (dedup_keys (map fst rows))","(k, f (firstn 1 (group rows k)))) (dedup_keys (map fst rows))","only the first row of a group is aggregated","C48, C49"),
 m(P,97,"reindex_fillna (preprocessing.py:52)","Some v => v | None => 0 end) index","Some v => v | None => 1 end) index","missing cells get 1","C48, C49"),
 m(P,98,"prepare_series_flat (preprocessing.py:46)","| Some e => sorted (dedup (axis ++ e)) end in","| Some e => sorted (dedup e) end in","add_axis replaces the labels","C48"),
 m(P,99,"prepare_dataframe (preprocessing.py:66)","(fst r, snd (snd r) * fst (snd r))) rows in","(fst r, snd (snd r))) rows in","results not weighted","C49"),
 m(P,100,"prepare_dataframe (preprocessing.py:64)","(fst r, fst (snd r))) rows) (fun l => Some (rsum l))","(fst r, snd (snd r))) rows) (fun l => Some (rsum l))","N sums the results instead of the weights","C49"),
 m(P,101,"dict_set (preprocessing.py:71)","map (fun e => if Nat.eqb (fst e) k then (k, v) else e) d\n","d\n","an existing N is kept","C49"),
 m(P,102,"insert_before_last (preprocessing.py:80)","Ok (removelast l ++ [x] ++ skipn (length l - 1) l)","Ok (l ++ [x])","column appended at the end (what was meant)","C50 (finding: last columns swapped)"),
 m(P,103,"df_count_row (preprocessing.py:79)","(seq 0 (size - 1))","(seq 1 (size - 1))","columns start at 1","C50"),
 m(P,104,"df_count_row (preprocessing.py:80)","(negb (existsb (fun b => b) X))","(existsb (fun b => b) X)","remainder column negated","C50"),
 m(P,105,"axes (preprocessing.py:36)","let a := sorted (snd nl) in","let a := snd nl in","levels not sorted","C48, C49"),
 m(P,106,"lookup","if keyeqb k' k then v else lookup r k","if keyeqb k' k then lookup r k else v","look-up of another key","C48, C49"),
]

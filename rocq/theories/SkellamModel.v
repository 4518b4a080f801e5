(** Model of /repo/maxlike/skellam.py over the reals.
    Oracles (quantified over in every theorem): [ndtri] (scipy's normal quantile;
    only its values on (0,1) are finite, other arguments raise in [tol2size]),
    [solve] (np.linalg.solve), [junk] (what a numpy division by zero contributes).
    [factorial] is the mathematical factorial.  Iterations carry fuel: [None] means
    "still running after that many iterations".  Floating point is not modelled. *)
From Coq Require Import Reals List ZArith.
From Verif Require Import Prelude.
Import List ListNotations.
Local Open Scope R_scope.

Definition lsum (l : list R) : R := fold_right Rplus 0 l.
Definition zip2 (f : R -> R -> R) (p q : list R) : list R := map (fun xy => f (fst xy) (snd xy)) (combine p q).

(** skellam.py:7-10.  np.vectorize on an empty array raises ValueError.
    [np.append(-1, curve[:-1] - curve[1:])] *)
Definition poisson_vector (a : R) (size : nat) : res (list R * list R) :=
  match size with
  | O => Raise ValueError
  | _ => let curve := map (fun u => a ^ u / INR (fact u)) (seq 0 size) in
         let dcurve := -1 :: zip2 Rminus (removelast curve) (tl curve) in
         Ok (map (Rmult (exp (- a))) curve, map (Rmult (exp (- a))) dcurve)
  end.
(** [p[:, None] * q[None, :]] *)
Definition outer (p q : list R) : list (list R) := map (fun x => map (fun y => x * y) q) p.
(** skellam.py:13-19 *)
Definition skellam_frame (a b : R) (size : nat) : res (list (list (list R))) :=
  let! (pa, da) := poisson_vector a size in
  let! (pb, db) := poisson_vector b size in
  Ok [outer pa pb; outer da pb; outer pa db].
(** skellam.py:23-25: [.sum(1)] *)
Definition poisson_cdf (a : R) (n : nat) : res (R * R) :=
  let! (p, d) := poisson_vector a (n + 1) in Ok (lsum p, lsum d).
(** skellam.py:28-31: [v[:, :-1].sum(1) + 0.5 * v[:, -1]] *)
Definition poisson_mid_cdf (a : R) (n : nat) : res (R * R) :=
  let! (p, d) := poisson_vector a (n + 1) in
  Ok (lsum (removelast p) + / 2 * last p 0, lsum (removelast d) + / 2 * last d 0).

(** Python's int(x): truncation towards zero. *)
Definition Rtrunc (x : R) : Z := if Rle_dec 0 x then Int_part x else (- Int_part (- x))%Z.
(** [v[xy].sum()] where [xy[i, j] = j - i]; [cols] columns, the mask given by a
    predicate on j - i. *)
Definition mask_sum (m : Z -> bool) (v : list (list R)) : R :=
  lsum (map (fun ir => lsum (map (fun jx => if m (Z.of_nat (fst jx) - Z.of_nat (fst ir))%Z then snd jx else 0)
                                 (combine (seq 0 (length (snd ir))) (snd ir))))
            (combine (seq 0 (length v)) v)).

Section Oracles.
Variable ndtri : R -> R.
Variable solve : (R * R) * (R * R) -> R * R -> res (R * R).
Variable junk : R.

(** skellam.py:34-37; int() of nan or of an infinity raises (ValueError /
    OverflowError), which is what ndtri gives outside (0,1). *)
Definition tol2size (tol : R) (args : list R) : res Z :=
  let args := match args with [] => [1] | _ => args end in
  if Rlt_dec 0 tol then if Rlt_dec tol 1 then
    Ok (Rtrunc (- ndtri tol * lsum (map sqrt args) + lsum args) + 1)%Z
  else Raise ValueError else Raise ValueError.
(** skellam.py:40-46 *)
Definition skellam_cdf (a b : R) (n : Z) (tol : R) (inverse : bool) : res (list R) :=
  let! size := tol2size tol [a; b] in
  let! fr := skellam_frame a b (Z.to_nat size) in
  Ok (map (mask_sum (fun d => if inverse then (n <=? d)%Z else (d <=? n)%Z)) fr).
(** skellam.py:49-56: rows are (mask <, mask >), columns (value, d/da, d/db). *)
Definition skellam_cdf_pair (a b : R) (n : Z) (tol : R) : res (list R * list R) :=
  let! size := tol2size tol [a; b] in
  let! fr := skellam_frame a b (Z.to_nat size) in
  Ok (map (mask_sum (fun d => (d <? n)%Z)) fr, map (mask_sum (fun d => (n <? d)%Z)) fr).

Definition np_div (x y : R) : R := if Req_EM_T y 0 then junk else x / y.

(** skellam.py:60-101.  The function returns a number, or one of two exception
    classes as a value. *)
Inductive pval := VNum (a : R) | VClass (e : exn).
(** the [for i in range(10)] loop, lines 90-98; returns the new a and the number of
    calls of poisson_cdf it made (ghost). *)
Fixpoint proot_inner (k : nat) (target : R) (n : nat) (a e step sf new_a new_e : R) : res (R * nat) :=
  match k with
  | O => Ok (a, O)
  | S k' =>
      if Rlt_dec 0 new_a then
        if Rlt_dec new_e (Rabs e) then Ok (new_a, O)
        else
          let na := a + sf * step in
          let! (nf, _) := poisson_cdf na n in
          let! (r, c) := proot_inner k' target n a e step (sf * / 2) na (Rabs (target - nf)) in
          Ok (r, S c)
      else
        let na := a + sf * step in
        let! (nf, _) := poisson_cdf na n in
        let! (r, c) := proot_inner k' target n a e step (sf * / 2) na (Rabs (target - nf)) in
        Ok (r, S c)
  end.
(** lines 81-101; the result carries the number of iterations and of calls of
    poisson_cdf (ghosts). *)
Fixpoint proot_loop (fuel : nat) (target : R) (n : nat) (tol a e : R) (count calls : nat)
  : option (res (pval * (nat * nat))) :=
  if Rlt_dec (Rabs tol) (Rabs e) then
    match fuel with
    | O => None
    | S fuel' =>
        match (let! (f, df) := poisson_cdf a n in
               let e := target - f in
               let step := np_div e df in
               let! (r, c) := proot_inner 10 target n a e step 1 (a + 1 * step) (Rabs (target - f)) in
               Ok (r, e, S c)) with
        | Raise x => Some (Raise x)
        | Ok (a', e', c) =>
            if (50 <? S count)%nat then Some (Ok (VClass ConvergenceError, (S count, (calls + c)%nat)))
            else proot_loop fuel' target n tol a' e' (S count) (calls + c)
        end
    end
  else Some (Ok (VNum a, (count, calls))).
Definition proot_guess (target : R) (n : nat) : R :=
  let phi := ndtri target in
  Rmax ((sqrt (phi * phi + 4 * INR n + 2) - phi) ^ 2 / 4) (/ 1000).
Definition poisson_cdf_root (fuel : nat) (target : R) (n : nat) (tol : R) : option (res (pval * (nat * nat))) :=
  if Rle_dec 1 target then Some (Ok (VClass ValueError, (O, O)))
  else if Rle_dec target 0 then Some (Ok (VClass ValueError, (O, O)))
  else proot_loop fuel target n tol (proot_guess target n) 1 0 0.

(** skellam.py:104-159.  [raise ConvergenceError] instantiates the class without
    its mandatory argument (maxlike_base.py:12), i.e. raises TypeError. *)
Definition norm2 (x y : R) : R := sqrt (x ^ 2 + y ^ 2).
Definition floor_ : R := / 1000000.
Definition pair_s (a b : R) (n : Z) (tol : R) : res (R * R) :=
  let! (p, q) := skellam_cdf_pair a b n tol in Ok (nth 0 p 0, nth 0 q 0).
(** lines 146-155 *)
Fixpoint sroot_inner (k : nat) (t1 t2 : R) (n : Z) (tol a b e st1 st2 sf na nb new_e : R) : res (R * R) :=
  match k with
  | O => Ok (a, b)
  | S k' =>
      if Rlt_dec new_e e then Ok (na, nb)
      else
        let sf := sf * / 2 in
        let na := Rmax (a + sf * st1) floor_ in
        let nb := Rmax (b + sf * st2) floor_ in
        let! (s1, s2) := pair_s na nb n tol in
        sroot_inner k' t1 t2 n tol a b e st1 st2 sf na nb (norm2 (s1 - t1) (s2 - t2))
  end.
Fixpoint sroot_loop (fuel : nat) (t1 t2 : R) (n : Z) (tol a b e : R) (count : nat) : option (res (R * R * nat)) :=
  if Rlt_dec (Rabs tol) e then
    match fuel with
    | O => None
    | S fuel' =>
        match (let! (p, q) := skellam_cdf_pair a b n tol in
               let s1 := nth 0 p 0 in let s2 := nth 0 q 0 in
               let e := norm2 (t1 - s1) (t2 - s2) in
               let! (st1, st2) := solve ((nth 1 p 0, nth 2 p 0), (nth 1 q 0, nth 2 q 0)) (t1 - s1, t2 - s2) in
               let! (a', b') := sroot_inner 10 t1 t2 n tol a b e st1 st2 1
                                  (Rmax (a + 1 * st1) floor_) (Rmax (b + 1 * st2) floor_) (norm2 (s1 - t1) (s2 - t2)) in
               Ok (a', b', e)) with
        | Raise x => Some (Raise x)
        | Ok (a', b', e') =>
            if (50 <? S count)%nat then Some (Raise TypeError)
            else sroot_loop fuel' t1 t2 n tol a' b' e' (S count)
        end
    end
  else Some (Ok (a, b, count)).
Definition skellam_cdf_root (fuel : nat) (t1 t2 : R) (n : Z) (tol : R) : option (res (R * R * nat)) :=
  if Rle_dec 1 (t1 + t2) then Some (Raise ValueError)
  else if Rle_dec (Rmin t1 t2) 0 then Some (Raise ValueError)
  else
    let phi_d := ndtri t1 in
    let phi_u := ndtri (1 - t2) in
    let sum_ab := 1 / (phi_u - phi_d) ^ 2 in
    let diff_ab := / 2 * (phi_u + phi_d) / (phi_u - phi_d) - IZR n in
    sroot_loop fuel t1 t2 n tol (Rmax ((sum_ab + diff_ab) * / 2) floor_) (Rmax ((sum_ab - diff_ab) * / 2) floor_) 1 0.

(** skellam.py:162-207.  [count] is never incremented, so [count > max_steps] is
    never true; kept as in the code.  [half_sum] is
    [frame[xy < 0].sum() + 0.5 * frame[xy == 0].sum()]. *)
Definition half_sum (v : list (list R)) : R := mask_sum (fun d => (d <? 0)%Z) v + / 2 * mask_sum (fun d => (d =? 0)%Z) v.
Fixpoint croot_inner (k : nat) (target : R) (size : nat) (pb : list R) (a e step sf na new_e : R) : res R :=
  match k with
  | O => Ok a
  | S k' =>
      if Rlt_dec new_e e then Ok na
      else
        let sf := sf * / 2 in
        let na := Rmax (a + sf * step) floor_ in
        let! (pa, _) := poisson_vector na size in
        croot_inner k' target size pb a e step sf na (Rabs (target - half_sum (outer pa pb)))
  end.
Fixpoint croot_loop (fuel : nat) (b target tol : R) (pb : list R) (a e : R) (count : nat) : option (res R) :=
  if Rlt_dec (Rabs tol) e then
    match fuel with
    | O => None
    | S fuel' =>
        match (let! size := tol2size tol [a; b] in
               let size := Z.to_nat size in
               let! (pa, da) := poisson_vector a size in
               let s := half_sum (outer pa pb) in
               let ds := half_sum (outer da pb) in
               let e := Rabs (target - s) in
               let step := np_div (target - s) ds in
               let! a' := croot_inner 10 target size pb a e step 1 (Rmax (a + 1 * step) floor_) (Rabs (target - s)) in
               Ok (a', e)) with
        | Raise x => Some (Raise x)
        | Ok (a', e') =>
            if (50 <? count)%nat then Some (Raise TypeError)
            else croot_loop fuel' b target tol pb a' e' count
        end
    end
  else Some (Ok a).
Definition conditional_skellam_cdf_root (fuel : nat) (b target tol : R) : option (res R) :=
  if Rle_dec target 0 then Some (Raise ValueError)
  else if Rle_dec 1 target then Some (Raise ValueError)
  else match (let! size := tol2size (/ 2 * tol) [b] in poisson_vector b (Z.to_nat size)) with
       | Raise x => Some (Raise x)
       | Ok (pb, _) => croot_loop fuel b target tol pb b 1 0
       end.
End Oracles.

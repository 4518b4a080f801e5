(** Model of /repo/maxlike/func/copula.py over the reals, for one feature cell:
    the marginals are lists.  The Gaussian copula (scipy's mvnun and ndtri) is not
    modelled.  IEEE conventions at 0 (division by zero and log of zero with
    warnings off) are spelled out where they are used. *)
From Coq Require Import Reals List.
From Verif Require Import Prelude.
Import List ListNotations.
Local Open Scope R_scope.

Fixpoint cumsum_from (acc : R) (l : list R) : list R :=
  match l with
  | [] => []
  | a :: r => (acc + a) :: cumsum_from (acc + a) r
  end.
Definition cumsum (l : list R) : list R := cumsum_from 0 l.
(** copula.py:36-39: cumsum, then division by the last element. *)
Definition normcum (l : list R) : list R :=
  let x := cumsum l in map (fun a => a / last x 0) x.
(** np.diff(_, 1) along an axis whose elements are subtracted by [sub]. *)
Fixpoint gdiff {A} (sub : A -> A -> A) (l : list A) : list A :=
  match l with
  | a :: r => match r with [] => [] | b :: _ => sub b a :: gdiff sub r end
  | [] => []
  end.
Definition diff1 (l : list R) : list R := gdiff Rminus l.
Definition rowminus (r1 r2 : list R) : list R := map (fun ab => fst ab - snd ab) (combine r1 r2).
(** copula.py:35-47: the wrapper.  [np.insert(F, 0, 0, -1)] puts a zero in front
    of every row, [np.insert(F, 0, 0, -2)] a row of zeros in front. *)
Definition joint (C : R -> R -> R) (px py : list R) : list (list R) :=
  let x := normcum px in
  let y := normcum py in
  let F := map (fun u => map (fun v => C u v) y) x in
  let F := map (fun row => 0 :: row) F in
  let F := repeat 0 (S (length y)) :: F in
  gdiff rowminus (map diff1 F).

(** numpy power of a non-negative base by a positive exponent. *)
Definition npow (x a : R) : R := if Rle_dec x 0 then 0 else Rpower x a.
(** copula.py:98-106.  At u = 0 (or v = 0) numpy gives 0**-a = inf and
    inf**(-1/a) = 0. *)
Definition clayton (a : R) (x y : R) : R :=
  if Rle_dec x 0 then 0 else if Rle_dec y 0 then 0 else
  Rpower (Rpower x (- a) + Rpower y (- a) - 1) (-1 / a).
(** copula.py:123-132.  At u = 0: -log 0 = inf, exp(-inf) = 0. *)
Definition gumbel (a : R) (x y : R) : R :=
  if Rle_dec x 0 then 0 else if Rle_dec y 0 then 0 else
  exp (- npow (npow (- ln x) a + npow (- ln y) a) (1 / a)).
(** copula.py:141-149 *)
Definition frank (a : R) (x y : R) : R :=
  (-1 / a) * ln (1 + (exp (- a * x) - 1) * (exp (- a * y) - 1) / (exp (- a) - 1)).
(** copula.py:161-167.  For rho = 1 and u = v = 0 numpy gives nan (0/0). *)
Definition amh (rho : R) (x y : R) : R := x * y / (1 - rho * (1 - x) * (1 - y)).

(** The asserts of the constructors: copula.py:98, 123, 141, 161. *)
Definition clayton_new (rho : R) : res R := if Rlt_dec 0 rho then Ok rho else Raise AssertionError.
Definition gumbel_new (rho : R) : res R := if Rle_dec 1 rho then Ok rho else Raise AssertionError.
Definition frank_new (rho : R) : res R := if Req_EM_T rho 0 then Raise AssertionError else Ok rho.
Definition amh_new (rho : R) : res R :=
  if Rle_dec rho 1 then if Rle_dec (-1) rho then Ok rho else Raise AssertionError else Raise AssertionError.

(** The four families behind one interface: construct with parameter rho (its
    assert), then call on the list of marginals (copula.py:35-47, 89-168). *)
Inductive family := FClayton | FGumbel | FFrank | FAkiMikhailHaq.
Definition new (f : family) (rho : R) : res R :=
  match f with FClayton => clayton_new rho | FGumbel => gumbel_new rho | FFrank => frank_new rho | FAkiMikhailHaq => amh_new rho end.
Definition cdf (f : family) (a : R) : R -> R -> R :=
  match f with FClayton => clayton a | FGumbel => gumbel a | FFrank => frank a | FAkiMikhailHaq => amh a end.
Definition call (f : family) (rho : R) (px py : list R) : res (list (list R)) :=
  rbind (new f rho) (fun a => Ok (joint (cdf f a) px py)).

(** The likelihood classes of maxlike.py once more, computing with Tensors
    (TensorModel.v, TensorUfunc.v, FTModel.v) instead of dense arrays: which
    operations are done in which order, when formal sums appear and which errors
    are raised.  LikeModel.v has the same formulas on dense arrays.

    The data [X], [N], [Z] are Python values; MaxLike.fit makes them Tensors
    (maxlike_base.py:462-464).  [gammaln] is any function R -> R.
    Simplifications: those of FTModel.v; numbers computed from the scale
    parameter alone ([np.log(s)], [r * np.log(r)], [gammaln(r)]) are exact reals. *)
From Verif Require Import Prelude DenseModel NDArray TensorModel TensorUfunc FuncModel FTModel.
From Coq Require Import Reals.
Open Scope R_scope.

(** .sum() and .sum(False), tensor.py:233-282, 484-534 *)
Definition ssum (v : pval) : res pval := psum v true.
Definition sumdims (v : pval) : res pval :=
  match v with PT t => rmap PT (tsum t SVFalse true) | PG g => gsum g SVFalse true | _ => Raise AttributeError end.

(** the methods of a likelihood class; the argument [params] of the code is only
    used for its length, which is the number of gradients *)
Record est := mkEst {
  e_like : pval -> res pval;                                           (* y *)
  e_grad : pval -> list pval -> res (list pval);                       (* y, der *)
  e_hess : pval -> list pval -> list (list pval) -> res (list (list pval)) }.  (* y, der, hess *)

(** [(d * delta).sum() for d in der] *)
Definition grad_delta (delta : pval) (der : list pval) : res (list pval) :=
  rmapM (fun d => let! w := py OMul d delta in ssum w) der.
(** [[block i j for j in range(i + 1)] for i in range(len(der))] *)
Definition triangle (n : nat) (block : nat -> nat -> res pval) : res (list (list pval)) :=
  rmapM (fun i => rmapM (block i) (seq 0 (S i))) (seq 0 n).
Definition rnth2 (h : list (list pval)) (i j : nat) : res pval := let! r := rnth h i in rnth r j.
(** der[i] * der[j].transpose() *)
Definition outer2 (der : list pval) (i j : nat) : res pval :=
  let! di := rnth der i in
  let! dj := rnth der j in
  let! tj := ptranspose dj in py OMul di tj.
(** (hess[i][j] * delta - der[i] * der[j].transpose() * delta2).sum(), with + for
    the negative binomial *)
Definition hess_delta (o : pyop) (delta delta2 : pval) (der : list pval) (hess : list (list pval)) : res (list (list pval)) :=
  triangle (length der) (fun i j =>
    let! h := rnth2 hess i j in
    let! a := py OMul h delta in
    let! q := outer2 der i j in
    let! b := py OMul q delta2 in
    let! w := py o a b in ssum w).

(** maxlike.py:6-28 *)
Definition e_Poisson (gammaln : R -> R) (X N : pval) : est := mkEst
  (fun y => let! a := py OMul X y in
            let! e := np1 exp y in
            let! b := py OMul N e in
            let! c := py OSub a b in
            let! x1 := py OAdd X (PNum 1) in
            let! g := np1 gammaln x1 in
            let! r := py OSub c g in ssum r)
  (fun y der => let! e := np1 exp y in
                let! b := py OMul N e in
                let! delta := py OSub X b in
                grad_delta delta der)
  (fun y der hess => let! e := np1 exp y in
                     let! delta2 := py OMul N e in
                     let! delta := py OSub X delta2 in
                     hess_delta OSub delta delta2 der hess).

(** 1 + (self.s - 1) * np.exp(-exp_y) *)
Definition zip_w (s : R) (exp_y : pval) : res pval :=
  let! ne := pneg exp_y in
  let! e := np1 exp ne in
  let! w := py OMul (PNum (s - 1)) e in
  py OAdd (PNum 1) w.
(** maxlike.py:31-61 *)
Definition e_ZIP (gammaln : R -> R) (s : R) (X N Z : pval) : est := mkEst
  (fun y => let! a := py OMul X y in
            let! z := py OMul Z (PNum (ln s)) in
            let! a := py OAdd a z in
            let! e := np1 exp y in
            let! ee := np1 exp e in
            let! u := py OAdd ee (PNum s) in
            let! u := py OSub u (PNum 1) in
            let! l := np1 ln u in
            let! b := py OMul N l in
            let! c := py OSub a b in
            let! x1 := py OAdd X (PNum 1) in
            let! g := np1 gammaln x1 in
            let! r := py OSub c g in ssum r)
  (fun y der => let! exp_y := np1 exp y in
                let! b := py OMul N exp_y in
                let! w := zip_w s exp_y in
                let! b := py ODiv b w in
                let! delta := py OSub X b in
                grad_delta delta der)
  (fun y der hess => let! exp_y := np1 exp y in
                     let! w := zip_w s exp_y in
                     let! t := py ODiv exp_y w in
                     let! nt := py OMul N t in
                     let! delta := py OSub X nt in
                     let! nt := py OMul N t in
                     let! u := py OMul t (PNum (s - 1)) in
                     let! ne := pneg exp_y in
                     let! e := np1 exp ne in
                     let! u := py OMul u e in
                     let! u := py OAdd (PNum 1) u in
                     let! delta2 := py OMul nt u in
                     hess_delta OSub delta delta2 der hess).

(** 1 + np.exp(-y) *)
Definition one_expm (y : pval) : res pval :=
  let! m := pneg y in let! e := np1 exp m in py OAdd (PNum 1) e.
(** maxlike.py:64-95 *)
Definition e_Logistic (X N : pval) : est := mkEst
  (fun y => let! u := one_expm y in
            let! l := np1 ln u in
            let! a := py OMul N l in
            let! nx := py OSub N X in
            let! b := py OMul nx y in
            let! c := py OAdd a b in
            let! s := ssum c in pneg s)
  (fun y der => let! u := one_expm y in
                let! b := py ODiv N u in
                let! delta := py OSub X b in
                grad_delta delta der)
  (fun y der hess => let! u := one_expm y in
                     let! p := py ODiv (PNum 1) u in
                     let! pn := py OMul p N in
                     let! delta := py OSub X pn in
                     let! q := py OSub (PNum 1) p in
                     let! pq := py OMul p q in
                     let! delta2 := py OMul pq N in
                     hess_delta OSub delta delta2 der hess).

(** maxlike.py:194-235 *)
Definition e_NegBin (gammaln : R -> R) (r : R) (X N : pval) : est := mkEst
  (fun y => let! xr := py OAdd X (PNum r) in
            let! g1 := np1 gammaln xr in
            let! x1 := py OAdd X (PNum 1) in
            let! g2 := np1 gammaln x1 in
            let! a := py OSub g1 g2 in
            let! a := py OAdd a (PNum (r * ln r)) in
            let! a := py OSub a (PNum (gammaln r)) in
            let! b := py OMul X y in
            let! a := py OAdd a b in
            let! rn := py OMul (PNum r) N in
            let! k := py OAdd X rn in
            let! e := np1 exp y in
            let! u := py OAdd (PNum r) e in
            let! l := np1 ln u in
            let! c := py OMul k l in
            let! w := py OSub a c in ssum w)
  (fun y der => let! m := np1 exp y in
                let! rn := py OMul (PNum r) N in
                let! k := py OAdd X rn in
                let! km := py OMul k m in
                let! u := py OAdd m (PNum r) in
                let! b := py ODiv km u in
                let! delta := py OSub X b in
                grad_delta delta der)
  (fun y der hess => let! m := np1 exp y in
                     let! u := py OAdd m (PNum r) in
                     let! s := py ODiv m u in
                     let! rn := py OMul (PNum r) N in
                     let! k := py OAdd X rn in
                     let! ks := py OMul k s in
                     let! delta := py OSub X ks in
                     let! rn := py OMul (PNum r) N in
                     let! k := py OAdd X rn in
                     let! ks := py OMul k s in
                     let! kss := py OMul ks s in
                     let! d := py OSub kss X in
                     let! delta2 := py OAdd d delta in
                     hess_delta OAdd delta delta2 der hess).

(** (h - q / y) / y, maxlike.py:149, 187 *)
Definition log_hess (h q y : pval) : res pval :=
  let! a := py ODiv q y in let! b := py OSub h a in py ODiv b y.
(** maxlike.py:156-191 *)
Definition e_NormFinite (N : pval) : est := mkEst
  (fun y => let! l := np1 ln y in let! a := py OMul N l in ssum a)
  (fun y der => rmapM (fun d => let! a := py OMul N d in let! b := py ODiv a y in ssum b) der)
  (fun y der hess => triangle (length der) (fun i j =>
      let! h := rnth2 hess i j in
      let! q := outer2 der i j in
      let! h := log_hess h q y in
      let! a := py OMul N h in ssum a)).

(** maxlike.py:98-153 *)
Definition e_Finite (N : pval) : est := mkEst
  (fun y => let! z := sumdims y in
            let! a := np1 ln y in
            let! b := np1 ln z in
            let! c := py OSub a b in
            let! d := py OMul N c in ssum d)
  (fun y der => let! z := sumdims y in
                rmapM (fun d => let! dz := sumdims d in
                                let! a := py ODiv d y in
                                let! b := py ODiv dz z in
                                let! c := py OSub a b in
                                let! w := py OMul N c in ssum w) der)
  (fun y der hess => let! z := sumdims y in
                     let! dz := rmapM sumdims der in
                     triangle (length der) (fun i j =>
      let! h := rnth2 hess i j in
      let! hz := sumdims h in
      let! q := outer2 der i j in
      let! H1 := log_hess h q y in
      let! qz := outer2 dz i j in
      let! H2 := log_hess hz qz z in
      let! d := py OSub H1 H2 in
      let! w := py OMul N d in ssum w)).

(** The log-likelihood as a function of the parameters: like(params, model(params)),
    grad_like(params, y, der)[i] and hess_like(params, y, der, hess)[i][j] with
    y, der, hess = model(params), model.grad(params), model.hess(params)
    (maxlike_base.py:94-100, 321-324, 347-352; func_base.py:133-150). *)
Definition ders (f : tfun) (ps : list pval) : res (list pval) := rmapM (t_grad f ps) (seq 0 (length ps)).
Definition hesses (f : tfun) (ps : list pval) : res (list (list pval)) :=
  rmapM (fun i => rmapM (t_hess f ps i) (seq 0 (S i))) (seq 0 (length ps)).
Definition loglik (e : est) (f : tfun) : tfun := mkTF
  (fun ps => let! y := t_call f ps in e_like e y)
  (fun ps i => let! y := t_call f ps in
               let! der := ders f ps in
               let! g := e_grad e y der in rnth g i)
  (fun ps i j => let! y := t_call f ps in
                 let! der := ders f ps in
                 let! hess := hesses f ps in
                 let! h := e_hess e y der hess in rnth2 h i j)
  false false.

(** The [eval] methods of the function objects, computing with Tensors: value,
    all gradients and the lower triangle of Hessians in one call.  MaxLike.fit
    calls only [eval] on its model (maxlike_base.py:420, 516).  FTModel.v has
    [__call__], [grad] and [hess]; FuncModel.v has [eval] on dense arrays.

    Simplifications: those of FTModel.v. *)
From Verif Require Import Prelude DenseModel NDArray TensorModel TensorUfunc FuncModel FTModel LTModel.
From Coq Require Import Reals.
Open Scope R_scope.

Definition evalP := (pval * list pval * list (list pval))%type.
(** a function object: its methods __call__, grad, hess, and its method eval *)
Record tobj := mkTO { o_f : tfun; o_eval : list pval -> res evalP }.

(** func_base.py:156-161: the eval that FuncMeta supplies when the class has none *)
Definition default_eval (f : tfun) (ps : list pval) : res evalP :=
  let! v := t_call f ps in
  let! gs := ders f ps in
  let! hs := hesses f ps in Ok (v, gs, hs).
Definition o_default (f : tfun) : tobj := mkTO f (default_eval f).
(** classes without an eval of their own: func.py:55-100, 122-133, sigmoid.py:38-51 *)
Definition o_X := o_default t_X.
Definition o_Scalar := o_default t_Scalar.
Definition o_Vector (a : nda) := o_default (t_Vector a).
Definition o_Constant (a : nda) := o_default (t_Constant a).
Definition o_Log := o_default t_Log.
Definition o_ArcTan := o_default t_ArcTan.
(** func.py:115-119 *)
Definition o_Exp : tobj := mkTO t_Exp (fun ps =>
  let! f := exp_tensor ps in
  let! g := grad_tensor (PT f) ps 0 MTrue (dm f) in
  let! h := hess_tensor (PT f) ps 0 0 MTrue MTrue (dm f) in
  Ok (PT f, [PT g], [[PT h]])).
(** sigmoid.py:30-35 *)
Definition o_Logistic : tobj := mkTO t_Logistic (fun ps =>
  let! p := rnth ps 0 in
  let! f := np1 expit p in
  let! t := as_tensor f in
  let! v1 := logis1 f in
  let! g := grad_tensor v1 ps 0 MTrue 0 in
  let! v2 := logis2 f in
  let! h := hess_tensor v2 ps 0 0 MTrue MTrue 0 in
  Ok (PT t, [PT g], [[PT h]])).
(** func_proba.py:38-47, 91-107 *)
Definition rows_eval (size : nat) (F dF ddF : R -> nat -> R) (ps : list pval) : res evalP :=
  let! p := rnth ps 0 in
  let! a := asarray p in
  let! t := Tensor (row_array a size F) 0 0 1 [] [] in
  let! g := grad_tensor (PArr (row_array a size dF)) ps 0 MTrue 1 in
  let! h := hess_tensor (PArr (row_array a size ddF)) ps 0 0 MTrue MTrue 1 in
  Ok (PT t, [PT g], [[PT h]]).
Definition o_Poisson (size : nat) : tobj :=
  mkTO (t_Poisson size) (rows_eval size pois_row (shift_row pois_row) (shift_row (shift_row pois_row))).
Definition o_LogNegativeBinomial (gammaln : R -> R) (size : nat) (r : R) : tobj :=
  mkTO (t_LogNegativeBinomial gammaln size r)
    (rows_eval size (lnb_row gammaln r)
      (fun m k => INR k / m - (INR k + r) / (r + m))
      (fun m k => (INR k + r) / ((r + m) * (r + m)) - INR k / (m * m))).

(** func_base.py:234-239 *)
Definition affine_eval (ev : list pval -> res evalP) (a b : R) (ps : list pval) : res evalP :=
  let! (bv, bg, bh) := ev ps in
  let! w := py OMul (PNum a) bv in
  let! v := py OAdd w (PNum b) in
  let! gs := rmapM (py OMul (PNum a)) bg in
  let! hs := rmapM (rmapM (py OMul (PNum a))) bh in
  Ok (v, gs, hs).
Definition o_affine (o : tobj) (a b : R) : tobj := mkTO (t_affine (o_f o) a b) (affine_eval (o_eval o) a b).

(** func_base.py:274-276, 332-334: sum(f_grad[k].dot_left(d_k[i]) for k, d_k in enumerate(g_grad)) *)
Definition ceval_grad (fg : list pval) (ggs : list (list pval)) (i : nat) : res pval :=
  let! ts := rmapM (fun '(k, dk) =>
      let! df := rnth fg k in
      let! d := rnth dk i in pdot_left df d) (enum ggs) in
  pysum ts.
(** lines 338-345: one entry of the Hessian *)
Definition ceval_hess (fg : list pval) (fh : list (list pval)) (ggs : list (list pval)) (ghs : list (list (list pval))) (i j : nat) : res pval :=
  ofold (fun hv '(k, (dk, hk)) =>
    let! df := rnth fg k in
    let! hg := rnth2 hk i j in
    let! hg := pdrop hg in
    let! r := pdot_right df hg in
    let! hv := py OAdd hv r in
    ofold (fun hv '(l, dl) =>
      let! h := (if Nat.ltb k l then let! h := rnth2 fh l k in ptranspose h else rnth2 fh k l) in
      let! di := rnth dk i in
      let! dj := rnth dl j in
      let! q := pquad h di dj in
      py OAdd hv q) (enum ggs) hv) (enum (combine ggs ghs)) tzero.
(** lines 277-279 *)
Definition ceval_hess_null (fg : list pval) (ghs : list (list (list pval))) (i j : nat) : res pval :=
  let! ts := rmapM (fun '(k, hk) =>
      let! df := rnth fg k in
      let! hg := rnth2 hk i j in
      let! hg := pdrop hg in pdot_right df hg) (enum ghs) in
  pysum ts.
(** lines 269-280 (f with a null Hessian) and 324-348; unpacking the empty zip
    raises ValueError *)
Definition compose_evalP (null : bool) (f : tobj) (gs : list tobj) (ps : list pval) : res evalP :=
  let! es := rmapM (fun g => o_eval g ps) gs in
  match es with [] => Raise ValueError | _ =>
  let! ggs := rmapM (fun e => rmapM pdrop (snd (fst e))) es in
  let ghs := map snd es in
  let! (v, fg, fh) := o_eval f (map (fun e => fst (fst e)) es) in
  let n := length ps in
  if null then
    let! gr := rmapM (ceval_grad fg ggs) (seq 0 n) in
    let! hs := rmapM (fun i => rmapM (ceval_hess_null fg ghs i) (seq 0 (S i))) (seq 0 n) in
    Ok (v, gr, hs)
  else
    let! rows := rmapM (fun i => let! g := ceval_grad fg ggs i in
                                 let! row := rmapM (ceval_hess fg fh ggs ghs i) (seq 0 (S i)) in Ok (g, row)) (seq 0 n) in
    Ok (v, map fst rows, map snd rows)
  end.
(** lines 253-283: the simplified eval is installed when only f.hess is null *)
Definition o_compose (f : tobj) (gs : list tobj) : tobj :=
  mkTO (t_compose (o_f f) (map o_f gs)) (compose_evalP (negb (t_nullg (o_f f)) && t_nullh (o_f f)) f gs).

(** func_op.py:48-59: eval when the wrapped Hessian is null *)
Definition wrap_evalP_null (w : wmap) (ev : list pval -> res evalP) (ps : list pval) : res evalP :=
  let! qs := imap (w_pm w) ps in
  let! (fv, fg, fh) := ev qs in
  let! v := tw_expand w fv in
  let! gs := rmapM (fun i => catch_val (let! k := rindex (w_pm w) i in let! g := rnth fg k in tw_expand w g)) (seq 0 (length ps)) in
  Ok (v, gs, map (fun i => repeat tzero (S i)) (seq 0 (length ps))).
(** lines 97-103: one row of the Hessian; [idxs] is idx_list *)
Definition wrow (w : wmap) (fh : list (list pval)) (idxs : list (option nat)) (i k : nat) : res (list pval) :=
  let! line := rmapM (fun j =>
      let! l := rnth idxs j in
      match l with
      | None => Ok tzero
      | Some l => let! h := rnth2 fh k l in tw_expand w h
      end) (seq 0 i) in
  let! h := rnth2 fh k k in
  let! h := tw_expand w h in Ok (line ++ [h]).
(** lines 93-109, the loop over the parameters.  A ValueError raised after
    grad.append leaves the gradient in the list and appends Tensor(0) as well. *)
Definition wstep (w : wmap) (fg : list pval) (fh : list (list pval)) (st : list pval * list (list pval) * list (option nat)) (i : nat)
    : res (list pval * list (list pval) * list (option nat)) :=
  let '(gs, hs, idxs) := st in
  match (let! k := rindex (w_pm w) i in let! g := rnth fg k in let! g := tw_expand w g in Ok (k, g)) with
  | Raise ValueError => Ok (gs ++ [tzero], hs ++ [repeat tzero (S i)], idxs ++ [None])
  | Raise e => Raise e
  | Ok (k, g) =>
      match wrow w fh idxs i k with
      | Raise ValueError => Ok (gs ++ [g; tzero], hs ++ [repeat tzero (S i)], idxs ++ [None])
      | Raise e => Raise e
      | Ok line => Ok (gs ++ [g], hs ++ [line], idxs ++ [Some k])
      end
  end.
(** lines 88-110 *)
Definition wrap_evalP (w : wmap) (ev : list pval -> res evalP) (ps : list pval) : res evalP :=
  let! qs := imap (w_pm w) ps in
  let! (fv, fg, fh) := ev qs in
  let! v := tw_expand w fv in
  let! (gs, hs, _) := ofold (wstep w fg fh) (seq 0 (length ps)) ([], [], []) in
  Ok (v, gs, hs).
Definition o_wrap (w : wmap) (o : tobj) : tobj :=
  mkTO (t_wrap w (o_f o)) (if t_nullh (o_f o) then wrap_evalP_null w (o_eval o) else wrap_evalP w (o_eval o)).

(** func_op.py:213-219: one atom *)
Definition sstep (n : nat) (ps : list pval) (st : evalP) (wa : R * tobj) : res evalP :=
  let '(v, gs, hs) := st in
  let '(w, a) := wa in
  let! (av, ag, ah) := o_eval a ps in
  let! x := py OMul (PNum w) av in
  let! v := py OAdd v x in
  let! rows := rmapM (fun i =>
      let! g := rnth gs i in
      let! d := rnth ag i in
      let! x := py OMul (PNum w) d in
      let! g := py OAdd g x in
      let! row := rmapM (fun j =>
          let! h := rnth2 hs i j in
          let! d := rnth2 ah i j in
          let! x := py OMul (PNum w) d in py OAdd h x) (seq 0 (S i)) in
      Ok (g, row)) (seq 0 n) in
  Ok (v, map fst rows, map snd rows).
(** lines 208-220; self.b is not added *)
Definition sum_evalP (atoms : list (R * tobj)) (ps : list pval) : res evalP :=
  let n := length ps in
  ofold (sstep n ps) atoms (tzero, repeat tzero n, map (fun i => repeat tzero (S i)) (seq 0 n)).
Definition o_sum (atoms : list (R * tobj)) (b : R) : tobj :=
  mkTO (t_sum (map (fun '(w, a) => (w, o_f a)) atoms) b) (sum_evalP atoms).

(** the results of eval, read as values, gradients and Hessians *)
Definition of_eval (o : tobj) : tfun := mkTF
  (fun ps => let! (v, _, _) := o_eval o ps in Ok v)
  (fun ps i => let! (_, gs, _) := o_eval o ps in rnth gs i)
  (fun ps i j => let! (_, _, hs) := o_eval o ps in rnth2 hs i j)
  (t_nullg (o_f o)) (t_nullh (o_f o)).

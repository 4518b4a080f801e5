(** Product (maxlike/func/func_op.py:222-300) computing with Tensor objects, as
    FTModel.v and ETModel.v do for the other function objects.  [add] (lines
    229-253) stores each factor in a FuncWrap: the factors here are the wrapped
    functions ([t_wrap], [o_wrap]). *)
From Verif Require Import Prelude NDArray TensorModel TensorUfunc FuncModel FTModel LTModel ETModel.
From Coq Require Import Reals.
Import List ListNotations.
Open Scope R_scope.

(** reduce(lambda x, y: x * y, l): TypeError on an empty sequence *)
Definition preduce (l : list pval) : res pval :=
  match l with [] => Raise TypeError | v :: r => ofold (py OMul) r v end.
(** Product._prod, lines 256-263: any TypeError makes the result 1.0 *)
Definition p_prod (vs : list pval) (except : list nat) : res pval :=
  match preduce (map (fun i => nth i vs (PNum 0)) (keep (length vs) except)) with
  | Raise TypeError => Ok (PNum 1)
  | r => r
  end.
(** [atom(params) for atom in self.atoms] *)
Definition p_vals (atoms : list tfun) (ps : list pval) : res (list pval) := rmapM (fun a => t_call a ps) atoms.
(** the k-th term of line 271 *)
Definition p_gterm (vs : list pval) (atoms : list tfun) (ps : list pval) (i k : nat) : res pval :=
  let! p := p_prod vs [k] in
  let! a := rnth atoms k in
  let! g := t_grad a ps i in
  py OMul p g.
(** lines 278-280: _prod(f_val, [k, l]) * a_k.grad(params, i) * a_l.grad(params, j).transpose() *)
Definition p_cross (vs : list pval) (atoms : list tfun) (ps : list pval) (i j k l : nat) : res pval :=
  let! p := p_prod vs [k; l] in
  let! ak := rnth atoms k in
  let! g := t_grad ak ps i in
  let! u := py OMul p g in
  let! al := rnth atoms l in
  let! d := t_grad al ps j in
  let! dt := ptranspose d in
  py OMul u dt.
(** line 282 *)
Definition p_hterm (vs : list pval) (atoms : list tfun) (ps : list pval) (i j k : nat) : res pval :=
  let! p := p_prod vs [k] in
  let! a := rnth atoms k in
  let! h := t_hess a ps i j in
  py OMul p h.
(** one round of the loop of lines 277-282 *)
Definition p_hstep (vs : list pval) (atoms : list tfun) (ps : list pval) (i j : nat) (hess : pval) (k : nat) : res pval :=
  let! cs := rmapM (p_cross vs atoms ps i j k) (keep (length atoms) [k]) in
  let! s := pysum cs in
  let! hess := py OAdd hess s in
  let! h := p_hterm vs atoms ps i j k in
  py OAdd hess h.
Definition t_product (atoms : list tfun) : tfun := mkTF
  (* lines 265-267 *)
  (fun ps => let! vs := p_vals atoms ps in preduce vs)
  (* lines 269-272 *)
  (fun ps i => let! vs := p_vals atoms ps in
               let! ts := rmapM (p_gterm vs atoms ps i) (seq 0 (length atoms)) in pysum ts)
  (* lines 274-283 *)
  (fun ps i j => let! vs := p_vals atoms ps in
                 ofold (p_hstep vs atoms ps i j) (seq 0 (length atoms)) (PNum 0))
  false false.

(** lines 292-297: the new hess[i][j] *)
Definition pe_hess (v : pval) (gs : list pval) (hs : list (list pval)) (av : pval) (ag : list pval) (ah : list (list pval)) (i j : nat) : res pval :=
  let! x := rnth2 ah i j in
  let! a := py OMul v x in
  let! x := rnth2 hs i j in
  let! b := py OMul av x in
  let! a := py OAdd a b in
  let! g := rnth gs i in
  let! x := rnth ag j in
  let! x := ptranspose x in
  let! b := py OMul g x in
  let! a := py OAdd a b in
  let! g := rnth ag i in
  let! x := rnth gs j in
  let! x := ptranspose x in
  let! b := py OMul g x in
  py OAdd a b.
(** one round of the loop of lines 290-299.  All the Hessian entries are computed
    before the gradients are replaced, and the gradients before the value. *)
Definition pe_step (n : nat) (ps : list pval) (st : evalP) (a : tobj) : res evalP :=
  let '(v, gs, hs) := st in
  let! (av, ag, ah) := o_eval a ps in
  let! hs' := rmapM (fun i => rmapM (fun j => pe_hess v gs hs av ag ah i j) (seq 0 (S i))) (seq 0 n) in
  let! gs' := rmapM (fun i => let! x := rnth ag i in
                              let! p := py OMul v x in
                              let! g := rnth gs i in
                              let! q := py OMul av g in
                              py OAdd p q) (seq 0 n) in
  let! v' := py OMul v av in
  Ok (v', gs', hs').
(** lines 285-300 *)
Definition o_product (atoms : list tobj) : tobj := mkTO (t_product (map o_f atoms))
  (fun ps => let n := length ps in
             ofold (pe_step n ps) atoms (PNum 1, repeat tzero n, map (fun i => repeat tzero (S i)) (seq 0 n))).

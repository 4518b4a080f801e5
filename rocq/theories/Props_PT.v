(** C83, C84: Product computing with Tensors. *)
From Verif Require Import Prelude DenseModel AnalyticSpec NDArray NDProofs TensorModel TensorSpec TensorUfunc FuncModel FuncSpec FTModel FTSpec FTPrim FTWrap FTRep FTBuilt FTValue FTFindings LTModel ETModel ETSpec ETBuilt DenseProofs PTModel PTBuilt PTEval Props_FT Props_ET.
From Verif Require FuncLemmas.
From Coquelicot Require Import Coquelicot.
From Coq Require Import Reals Lra.
Import List ListNotations.
Open Scope R_scope.
#[local] Existing Instance loose.

(** *** C83: value, gradient and Hessian of a Product.  [factors] (PTBuilt.v): at
    least one factor, each an expression of C73, with outputs that broadcast to an
    array with at least one axis, no diagonal along a broadcast axis *)
Theorem C83_derivatives : forall ss D ats, factors ss D ats -> t_correct ss (join (map ta_o ats)) D (t_product (map ta_f ats)).
Proof. exact product_t_correct. Qed.
Print Assumptions C83_derivatives.
Theorem C83_value : forall ss D ats ps n d, factors ss D ats -> are_pars ss ps -> D ps ->
  In n (indices (fst (join (map ta_o ats)))) -> In d (indices (snd (join (map ta_o ats)))) ->
  at_res (t_call (t_product (map ta_f ats)) ps) [] [] n d = fold_right Rmult 1 (map (fun a => at_res (t_call (ta_f a) ps) [] [] n d) ats).
Proof. exact product_value. Qed.
Print Assumptions C83_value.
(** without factors, calling it raises TypeError while the gradient is the number 0 *)
Theorem C83_empty : forall ps i j, t_call (t_product []) ps = Raise TypeError /\ t_grad (t_product []) ps i = Ok (PNum 0) /\ t_hess (t_product []) ps i j = Ok (PNum 0).
Proof. intros. repeat split; reflexivity. Qed.
Print Assumptions C83_empty.
Lemma factors2 : factors two_axes anyP atoms2.
Proof.
  constructor.
  - exact pos_two. - discriminate. - exact atoms2_bc. - intros E; vm_compute in E; discriminate E. - apply loose_dims, atoms2_bc.
  - repeat constructor; intros f [<-|[]]; reflexivity.
  - intros a Ha. change atoms2 with (map tatom_of eatoms2) in Ha. apply in_map_iff in Ha as (a' & <- & Ha). apply ebuilt_tbuilt. now apply eatoms2_built.
Qed.
Lemma aX_vec u v i j : (i < 2)%nat -> at_res (t_call aX [vec 2 u; vec 3 v]) [] [] [i; j] [] = u i.
Proof. intros Hi. destruct i as [|[|i]]; [cbn; ring|cbn; ring|lia]. Qed.
Lemma bX_vec u v i j : (j < 3)%nat -> at_res (t_call bX [vec 2 u; vec 3 v]) [] [] [i; j] [] = v j.
Proof. intros Hj. destruct j as [|[|[|j]]]; [cbn; ring|cbn; ring|cbn; ring|lia]. Qed.
(** rates u_i v_j: value and derivatives *)
Example C83_nonvacuous : forall u v, t_correct two_axes ([2; 3]%nat, []) anyP (t_product [aX; bX]) /\ are_pars two_axes [vec 2 u; vec 3 v] /\
  (forall i j, (i < 2)%nat -> (j < 3)%nat -> at_res (t_call (t_product [aX; bX]) [vec 2 u; vec 3 v]) [] [] [i; j] [] = u i * v j) /\
  (exists h, t_hess (t_product [aX; bX]) [vec 2 u; vec 3 v] 1 0 = Ok h).
Proof.
  intros u v. pose proof (C83_derivatives _ _ _ factors2) as C. change (join (map ta_o atoms2)) with ([2; 3]%nat, @nil nat) in C. split; [exact C|]. split; [apply vecs_par|]. split.
  - intros i j Hi Hj. pose proof (aX_vec u v i j Hi) as A. pose proof (bX_vec u v i j Hj) as B. pose proof (vecs_par u v) as Pa. set (ps := [vec 2 u; vec 3 v]) in *. clearbody ps.
    assert (Hn : In [i; j] (indices [2; 3]%nat)) by (apply In_indices; constructor; [exact Hi|constructor; [exact Hj|constructor]]).
    pose proof (C83_value two_axes anyP atoms2 ps [i; j] [] factors2 Pa I Hn (or_introl eq_refl)) as S. cbn [map atoms2 ta_f fold_right] in S. rewrite S, A, B. ring.
  - destruct (tc_total _ _ _ _ C _ (vecs_par u v) I) as (_ & _ & H). apply H; cbn; lia.
Qed.
Print Assumptions C83_nonvacuous.

(** *** C84: eval, which multiplies factor by factor, agrees with the methods *)
Theorem C84_eval_agrees : forall ss D ats ps, efactors ss D ats -> are_pars ss ps -> D ps ->
  eval_agrees ss (join (map ea_o ats)) (o_product (map ea_x ats)) ps.
Proof. exact product_eval_agrees. Qed.
Print Assumptions C84_eval_agrees.
Lemma efactors2 : efactors two_axes anyP eatoms2.
Proof.
  constructor.
  - exact pos_two. - discriminate. - exact atoms2_bc. - intros E; vm_compute in E; discriminate E.
  - exact (proj1 (Forall_map tatom_of _ eatoms2) (loose_dims (map tatom_of eatoms2) atoms2_bc)).
  - repeat constructor; intros f [<-|[]]; reflexivity.
  - exact eatoms2_built.
Qed.
Example C84_nonvacuous : forall u v, exists r gs hs, o_eval (o_product [aXo; bXo]) [vec 2 u; vec 3 v] = Ok (r, gs, hs) /\ length gs = 2%nat /\
  forall i j, (i < 2)%nat -> (j < 3)%nat -> get (vden r) [] [] [i; j] [] = u i * v j.
Proof.
  intros u v. destruct (C84_eval_agrees two_axes anyP eatoms2 _ efactors2 (vecs_par u v) I) as (r & gs & hs & r' & E & E' & V & Lg & _).
  exists r, gs, hs. split; [exact E|]. split; [exact Lg|]. intros i j Hi Hj.
  assert (Hn : In [i; j] (indices [2; 3]%nat)) by (apply In_indices; constructor; [exact Hi|constructor; [exact Hj|constructor]]).
  pose proof (V [i; j] [] Hn (or_introl eq_refl)) as Q. unfold same_at in Q. rewrite Q.
  destruct (C83_nonvacuous u v) as (_ & _ & W & _). specialize (W i j Hi Hj). change (t_call (t_product [aX; bX]) [vec 2 u; vec 3 v] = Ok r') in E'. unfold at_res in W. rewrite E' in W. exact W.
Qed.
Print Assumptions C84_nonvacuous.

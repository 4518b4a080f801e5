(** C79: the eval methods of function objects computing with Tensors. *)
From Verif Require Import Prelude DenseModel AnalyticSpec NDArray NDProofs TensorModel TensorSpec TensorUfunc FuncModel FuncSpec FTModel FTSpec FTPrim FTWrap FTRep FTBuilt FTValue FTFindings LTModel ETModel ETSpec ETBuilt DenseProofs Props_FT.
From Verif Require FuncLemmas.
From Coquelicot Require Import Coquelicot.
From Coq Require Import Reals Lra Sorted.
Import List ListNotations.
Open Scope R_scope.
#[local] Existing Instance loose.

(** eval gives what __call__, grad and hess give *)
Theorem C79_eval_agrees : forall ss out D mf dep col o, ebuilt ss out D mf dep col o ->
  forall ps, are_pars ss ps -> D ps -> eval_agrees ss out o ps.
Proof. intros ss out D mf dep col o T ps A d. exact (ebuilt_agrees _ _ _ _ _ _ _ ps T A d). Qed.
Print Assumptions C79_eval_agrees.
(** the gradients and Hessians that eval returns are the derivatives of the value
    it returns *)
Theorem C79_eval_derivatives : forall ss out D mf dep col o, ebuilt ss out D mf dep col o -> t_correct ss out D (of_eval o).
Proof. intros ss out D mf dep col o T. exact (densely_correct _ _ _ _ _ _ _ (ebuilt_of_eval _ _ _ _ _ _ _ T)). Qed.
Print Assumptions C79_eval_derivatives.
(** the methods of these objects are those of C73 *)
Theorem C79_same_objects : forall ss out D mf dep col o, ebuilt ss out D mf dep col o -> tbuilt ss out D mf dep col (o_f o).
Proof. exact ebuilt_tbuilt. Qed.
Print Assumptions C79_same_objects.
(** finding: Sum.eval leaves out the offset that the value contains, func_op.py:208-220 *)
Theorem C79_sum_offset : forall ss D (ats : list eatom) b, Forall (fun s => posl (flat s)) ss -> ats <> [] -> Forall (fun a => ea_w a <> 0) ats ->
  broadcastable (map ea_o ats) -> flat (join (map ea_o ats)) <> [] ->
  Forall (fun a => forall f, In f (ea_mf a) -> nth f (fst (ea_o a)) 1%nat = nth f (fst (join (map ea_o ats))) 1%nat) ats ->
  b = 0 \/ forallb ea_col ats = false ->
  (forall a, In a ats -> ebuilt ss (ea_o a) D (ea_mf a) (ea_dep a) (ea_col a) (ea_x a)) ->
  forall ps, are_pars ss ps -> D ps ->
  let o := o_sum (map (fun a => (ea_w a, ea_x a)) ats) b in let out := join (map ea_o ats) in
  exists v gs hs v', o_eval o ps = Ok (v, gs, hs) /\ t_call (o_f o) ps = Ok v' /\
    forall n d, In n (indices (fst out)) -> In d (indices (snd out)) -> get (vden v') [] [] n d = get (vden v) [] [] n d + b.
Proof.
  intros ss D ats b Pss Ne Hw Bc NJ Mf Hb EB ps A d o out.
  assert (Eo : map ta_o (map tatom_of ats) = map ea_o ats) by (rewrite map_map; reflexivity).
  assert (Ec : forallb ta_col (map tatom_of ats) = forallb ea_col ats) by (clear; induction ats as [|a l IH]; cbn; [reflexivity|now rewrite IH]).
  assert (Et : map (fun a => (ta_w a, ta_f a)) (map tatom_of ats) = map (fun '(w, a) => (w, o_f a)) (map (fun a => (ea_w a, ea_x a)) ats)) by (rewrite !map_map; reflexivity).
  assert (Dr : Forall (fun a => DR (snd (ta_o a)) (snd (join (map ta_o (map tatom_of ats))))) (map tatom_of ats)) by (apply loose_dims; now rewrite Eo).
  assert (E0 : ebuilt ss out D (flat_map ea_mf ats) (fun i => existsb (fun a => ea_dep a i) ats) (forallb ea_col ats) (o_sum (map (fun a => (ea_w a, ea_x a)) ats) 0)).
  { apply eb_sum; auto. rewrite Eo in Dr. rewrite Forall_map in Dr. exact Dr. }
  destruct (ebuilt_agrees _ _ _ _ _ _ _ ps E0 A d) as (v & gs & hs & v0 & Ev & Ev0 & Vv & _).
  assert (TB : forall a, In a (map tatom_of ats) -> tbuilt ss (ta_o a) D (ta_mf a) (ta_dep a) (ta_col a) (ta_f a)) by (intros a Ha; apply in_map_iff in Ha as (a' & <- & Ha); apply ebuilt_tbuilt; now apply EB).
  assert (S0 : forall c n e, c = 0 \/ forallb ea_col ats = false -> In n (indices (fst out)) -> In e (indices (snd out)) -> exists w,
    t_call (o_f (o_sum (map (fun a => (ea_w a, ea_x a)) ats) c)) ps = Ok w /\ get (vden w) [] [] n e = Rsum (fun a => ta_w a * at_res (t_call (ta_f a) ps) [] [] n e) (map tatom_of ats) + c).
  { intros c n e Hc Hn He. assert (B1 : tbuilt ss (join (map ta_o (map tatom_of ats))) D (flat_map ta_mf (map tatom_of ats)) (fun i => existsb (fun a => ta_dep a i) (map tatom_of ats)) (forallb ta_col (map tatom_of ats)) (t_sum (map (fun a => (ta_w a, ta_f a)) (map tatom_of ats)) c)).
    { apply tb_sum; rewrite ?Eo, ?Ec; auto; try (apply Forall_map; auto). - destruct ats; [contradiction|discriminate]. - rewrite Forall_map, Eo in Dr. exact Dr. }
    destruct (proj1 (tc_total _ _ _ _ (tbuilt_correct _ _ _ _ _ _ _ B1) ps A d)) as (w & Ew). exists w.
    pose proof (value_sum ss D (map tatom_of ats) c ps n e Pss) as V. rewrite Et in Ew, V. cbn [o_sum o_f]. split; [exact Ew|]. unfold at_res at 1 in V. rewrite Ew in V. cbn [res0] in V. apply V; rewrite ?Eo, ?Ec; auto.
    - destruct ats; [contradiction|discriminate].
    - apply Forall_map; auto.
    - apply Forall_map; auto. }
  assert (E1 : exists v', t_call (o_f o) ps = Ok v').
  { assert (B1 : tbuilt ss (join (map ta_o (map tatom_of ats))) D (flat_map ta_mf (map tatom_of ats)) (fun i => existsb (fun a => ta_dep a i) (map tatom_of ats)) (forallb ta_col (map tatom_of ats)) (t_sum (map (fun a => (ta_w a, ta_f a)) (map tatom_of ats)) b)).
    { apply tb_sum; rewrite ?Eo, ?Ec; auto; try (apply Forall_map; auto). - destruct ats; [contradiction|discriminate]. - rewrite Forall_map, Eo in Dr. exact Dr. }
    destruct (proj1 (tc_total _ _ _ _ (tbuilt_correct _ _ _ _ _ _ _ B1) ps A d)) as (w & Ew). exists w. unfold o. cbn [o_sum o_f]. rewrite <- Et. exact Ew. }
  destruct E1 as (v' & Ev'). exists v, gs, hs, v'. split; [exact Ev|]. split; [exact Ev'|]. intros n e Hn He.
  destruct (S0 b n e Hb Hn He) as (w & Ew & Vw). destruct (S0 0 n e (or_introl eq_refl) Hn He) as (w0 & Ew0 & Vw0).
  fold o in Ew. rewrite Ew in Ev'. injection Ev' as <-. rewrite Ew0 in Ev0. injection Ev0 as <-. rewrite (Vv n e Hn He), Vw, Vw0. ring.
Qed.
Print Assumptions C79_sum_offset.

(** the example of C73 with eval: rates exp(a_i + b_j), probabilities up to a factor *)
Definition aXo : tobj := o_wrap (mkW (0%nat :: nil) (0%nat :: nil) 2 [] 0 []) o_X.
Definition bXo : tobj := o_wrap (mkW (1%nat :: nil) (1%nat :: nil) 2 [] 0 []) o_X.
Definition eatoms2 : list eatom :=
  [mkEAtom 1 aXo ([2; 1]%nat, []) (0%nat :: nil) (wdep (mkW (0%nat :: nil) (0%nat :: nil) 2 [] 0 []) (fun _ => true)) false;
   mkEAtom 1 bXo ([1; 3]%nat, []) (1%nat :: nil) (wdep (mkW (1%nat :: nil) (1%nat :: nil) 2 [] 0 []) (fun _ => true)) false].
Definition linear2o (b : R) : tobj := o_sum [(1, aXo); (1, bXo)] b.
Definition rate2o : tobj := o_compose o_Exp (linear2o 0 :: nil).
Definition poisson2o : tobj := o_compose (o_Poisson 4) (rate2o :: nil).
Lemma eatoms2_built a : In a eatoms2 -> ebuilt two_axes (ea_o a) anyP (ea_mf a) (ea_dep a) (ea_col a) (ea_x a).
Proof.
  intros [<-|[<-|[]]]; cbn [ea_o ea_mf ea_dep ea_col ea_x].
  + apply (eb_domain _ _ (fun ps => anyP (map (fun k => nth k ps (PNum 0)) (0%nat :: nil)))); [intros; exact I|].
    apply (eb_wrap two_axes ((2 :: nil)%nat, []) anyP (seq 0 1) (fun _ => true) false (mkW (0%nat :: nil) (0%nat :: nil) 2 [] 0 []) o_X).
    * apply sing. * repeat constructor. * apply wok. lia. * left; repeat constructor. * now left. * apply (eb_X (2 :: nil)%nat). repeat constructor.
  + apply (eb_domain _ _ (fun ps => anyP (map (fun k => nth k ps (PNum 0)) (1%nat :: nil)))); [intros; exact I|].
    apply (eb_wrap two_axes ((3 :: nil)%nat, []) anyP (seq 0 1) (fun _ => true) false (mkW (1%nat :: nil) (1%nat :: nil) 2 [] 0 []) o_X).
    * apply sing. * repeat constructor. * apply wok. lia. * left; repeat constructor. * now left. * apply (eb_X (3 :: nil)%nat). repeat constructor.
Qed.
Lemma linear2o_built : ebuilt two_axes ([2; 3]%nat, []) anyP [0%nat; 1%nat] (fun i => existsb (fun a => ea_dep a i) eatoms2) false (linear2o 0).
Proof.
  apply (eb_sum two_axes anyP eatoms2).
  - exact pos_two. - discriminate. - repeat constructor; cbn; lra. - exact atoms2_bc. - intros E; vm_compute in E; discriminate E.
  - exact (proj1 (Forall_map tatom_of _ eatoms2) (loose_dims (map tatom_of eatoms2) atoms2_bc)).
  - repeat constructor; intros f [<-|[]]; reflexivity.
  - exact eatoms2_built.
Qed.
Lemma rate2o_built : ebuilt two_axes ([2; 3]%nat, []) anyP [0%nat; 1%nat] (fun _ => true) false rate2o.
Proof.
  apply (eb_domain _ _ (fun ps => (forall v, t_call (o_f (linear2o 0)) ps = Ok v -> anyP (v :: nil)) /\ anyP ps)); [intros; split; [intros; exact I|exact I]|].
  apply (eb_compose two_axes ([2; 3]%nat, []) [] anyP anyP [0%nat; 1%nat] (fun i => existsb (fun a => ea_dep a i) eatoms2) o_Exp (linear2o 0)).
  - exact pos_two. - discriminate. - intros [|[|i]] Hi; [reflexivity|reflexivity|cbn in Hi; lia].
  - apply (eo_Exp [2; 3]%nat). repeat constructor.
  - exact linear2o_built.
Qed.
Lemma poisson2o_built : ebuilt two_axes ([2; 3]%nat, (4 :: nil)%nat) anyP [0%nat; 1%nat] (fun _ => true) false poisson2o.
Proof.
  apply (eb_domain _ _ (fun ps => (forall v, t_call (o_f rate2o) ps = Ok v -> anyP (v :: nil)) /\ anyP ps)); [intros; split; [intros; exact I|exact I]|].
  apply (eb_compose two_axes ([2; 3]%nat, []) (4 :: nil)%nat anyP anyP [0%nat; 1%nat] (fun _ => true) (o_Poisson 4) rate2o).
  - exact pos_two. - discriminate. - reflexivity.
  - apply eo_Poisson; [repeat constructor|lia].
  - exact rate2o_built.
Qed.
Example C79_nonvacuous : forall u v b,
  o_f poisson2o = poisson2 /\ t_correct two_axes ([2; 3]%nat, (4 :: nil)%nat) anyP (of_eval poisson2o) /\
  (exists w gs hs, o_eval poisson2o [vec 2 u; vec 3 v] = Ok (w, gs, hs) /\ length gs = 2%nat /\ length (nth 1 hs []) = 2%nat /\
     forall i j k, (i < 2)%nat -> (j < 3)%nat -> (k < 4)%nat -> get (vden w) [] [] [i; j] (k :: nil) = exp (u i + v j) ^ k / INR (fact k)) /\
  (exists w gs hs, o_eval (linear2o b) [vec 2 u; vec 3 v] = Ok (w, gs, hs) /\
     forall i j, (i < 2)%nat -> (j < 3)%nat -> get (vden w) [] [] [i; j] [] = u i + v j).
Proof.
  intros u v b. split; [reflexivity|]. split; [exact (C79_eval_derivatives _ _ _ _ _ _ _ poisson2o_built)|].
  assert (Hn : forall i j, (i < 2)%nat -> (j < 3)%nat -> In [i; j] (indices [2; 3]%nat)) by (intros i j Hi Hj; apply In_indices; constructor; [exact Hi|constructor; [exact Hj|constructor]]).
  split.
  - destruct (C79_eval_agrees _ _ _ _ _ _ _ poisson2o_built _ (vecs_par u v) I) as (w & gs & hs & w' & Ew & Ew' & V & Lg & _ & _ & Lh & _). exists w, gs, hs. split; [exact Ew|]. split; [exact Lg|]. split; [apply Lh; cbn; lia|].
    intros i j k Hi Hj Hk. rewrite (V [i; j] (k :: nil) (Hn i j Hi Hj)) by (apply In_indices; constructor; [exact Hk|constructor]).
    destruct (C74_compose _ _ _ _ _ (t_Poisson 4) rate2 _ rate2_built (vecs_par u v) I) as (r & Er & Pr & Ec & Vr).
    change (o_f poisson2o) with poisson2 in Ew'. unfold poisson2 in Ew'. rewrite Ec in Ew'.
    pose proof (C74_poisson 4 ([2; 3]%nat, []) r [i; j] k ltac:(repeat constructor) Hk Pr ltac:(apply Hn; auto)) as P. unfold at_res in P. rewrite Ew' in P. cbn [res0] in P. rewrite P. f_equal. f_equal.
    pose proof (Vr [i; j] [] (Hn i j Hi Hj) (or_introl eq_refl)) as Q. rewrite app_nil_r in Q. rewrite Q. now apply C74_nonvacuous.
  - destruct (C79_sum_offset two_axes anyP eatoms2 0 pos_two ltac:(discriminate) ltac:(repeat constructor; cbn; lra) atoms2_bc ltac:(intros E; vm_compute in E; discriminate E)
      ltac:(repeat constructor; intros f [<-|[]]; reflexivity) (or_introl eq_refl) eatoms2_built _ (vecs_par u v) I) as (w & gs & hs & w' & Ew & Ew' & V).
    exists w, gs, hs. split; [exact Ew|]. intros i j Hi Hj. pose proof (V [i; j] [] (Hn i j Hi Hj) (or_introl eq_refl)) as Q.
    destruct (C74_compose _ _ _ _ _ t_Exp linear2 _ linear2_built (vecs_par u v) I) as (r & Er & Pr & Ec & Vr). change (t_call (o_f (o_sum (map (fun a => (ea_w a, ea_x a)) eatoms2) 0)) [vec 2 u; vec 3 v]) with (t_call linear2 [vec 2 u; vec 3 v]) in Ew'.
    rewrite Ew' in Er. injection Er as ->. pose proof (C74_nonvacuous u v i j Hi Hj) as Z. unfold rate2 in Z. rewrite Ec in Z. rewrite (value_Exp [2; 3]%nat r [i; j]) in Z; [|repeat constructor|exact Pr|now apply Hn].
    apply exp_inv in Z. rewrite <- Z. pose proof (Vr [i; j] [] (Hn i j Hi Hj) (or_introl eq_refl)) as Q2. rewrite app_nil_r in Q2. rewrite Q2. unfold at_res. rewrite Ew'. cbn [res0]. lra.
Qed.
Print Assumptions C79_nonvacuous.

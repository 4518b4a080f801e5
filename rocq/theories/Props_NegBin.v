(** C86: NegativeBinomial(n, r) = Exp() @ LogNegativeBinomial(n, r), computing with tensors. *)
From Verif Require Import Prelude DenseModel AnalyticSpec NDArray NDProofs TensorModel TensorSpec FuncModel FuncSpec FTModel FTSpec FTFindings FTWrap FTBuilt FTAssoc DenseProofs LTModel ETModel ETSpec ETBuilt FTNegBin Props_FT Props_ET Props_Nest.
From Coquelicot Require Import Coquelicot.
From Coq Require Import Reals Lra Lia.
Import List ListNotations.
Open Scope R_scope.
#[local] Existing Instance loose.

(** entry k of the row at n is the exponential of the log probability *)
Theorem C86_value : forall gammaln size r s p n k, posl (flat s) -> (k < size)%nat -> 0 < r -> is_par s p ->
  (forall x, In x (indices (flat s)) -> 0 < pentry p x) -> In n (indices (flat s)) ->
  let m := pentry p n in
  at_res (t_call (t_NegativeBinomial gammaln size r) (p :: nil)) [] [] n (k :: nil) =
    exp (INR k * ln m + gammaln (r + INR k) - gammaln r + r * ln r - ln (INR (fact k)) - (INR k + r) * ln (r + m)).
Proof. intros gl size r s p n k P Hk Hr Hp Pos Hn m. exact (value_negbin gl size r s p n k P Hk Hr Hp Pos Hn). Qed.
Print Assumptions C86_value.
(** for r = 1, 2, ... and gammaln(j + 1) = ln(j!): the negative binomial distribution of mean m *)
Theorem C86_pmf : forall gammaln size q s p n k, (forall j, gammaln (INR (S j)) = ln (INR (fact j))) ->
  posl (flat s) -> (k < size)%nat -> is_par s p -> (forall x, In x (indices (flat s)) -> 0 < pentry p x) -> In n (indices (flat s)) ->
  let r := INR (S q) in let m := pentry p n in
  at_res (t_call (t_NegativeBinomial gammaln size r) (p :: nil)) [] [] n (k :: nil) =
    INR (fact (k + q)) / (INR (fact k) * INR (fact q)) * (r / (r + m)) ^ (S q) * (m / (r + m)) ^ k.
Proof.
  intros gl size q s p n k G P Hk Hp Pos Hn r m. rewrite (value_negbin gl size r s p n k P Hk (lt_0_INR (S q) ltac:(lia)) Hp Pos Hn).
  exact (negbin_pmf gl q m k G (Pos n Hn)).
Qed.
Print Assumptions C86_pmf.
(** NegativeBinomial(n, r) @ g: the gradients and Hessians are the derivatives, wherever g is positive *)
Theorem C86_derivatives : forall gammaln size r ss s Dg mf dep g, 0 < r -> (1 <= size)%nat ->
  Forall (fun s => posl (flat s)) ss -> posl (flat s) -> flat s <> [] -> (forall i, (i < length ss)%nat -> dep i = true) ->
  tbuilt ss s Dg mf dep false g ->
  t_correct ss (flat s, size :: nil) (fun ps => (forall v, t_call g ps = Ok v -> forall x, In x (indices (flat s)) -> 0 < pentry v x) /\ Dg ps) (t_compose (t_NegativeBinomial gammaln size r) (g :: nil)).
Proof.
  intros gl size r ss s Dg mf dep g Hr Hs Pss P NK Dep B. exact (tbuilt_correct _ _ _ _ _ _ _ (tb_compose ss s (size :: nil) (posP s) Dg mf dep _ g Pss NK Dep (negbin_outer gl size r s P NK Hs Hr) B)).
Qed.
Print Assumptions C86_derivatives.
(** eval returns what the methods return *)
Theorem C86_eval : forall gammaln size r ss s Dg mf dep g ps, 0 < r -> (1 <= size)%nat ->
  Forall (fun s => posl (flat s)) ss -> posl (flat s) -> flat s <> [] -> (forall i, (i < length ss)%nat -> dep i = true) ->
  ebuilt ss s Dg mf dep false g -> are_pars ss ps -> Dg ps ->
  (forall v, t_call (o_f g) ps = Ok v -> forall x, In x (indices (flat s)) -> 0 < pentry v x) ->
  eval_agrees ss (flat s, size :: nil) (ETModel.o_compose (o_NegativeBinomial gammaln size r) (g :: nil)) ps.
Proof.
  intros gl size r ss s Dg mf dep g ps Hr Hs Pss P NK Dep B A d Pos.
  refine (ebuilt_agrees _ _ _ _ _ _ _ ps (eb_compose ss s (size :: nil) (posP s) Dg mf dep _ g Pss NK Dep (negbin_eouter gl size r s P NK Hs Hr) B) A _). split; [exact Pos|exact d].
Qed.
Print Assumptions C86_eval.

(** NegativeBinomial(4, 1) @ Exp() @ (a + b), as in the tests of the library *)
Definition negbin2 (gl : R -> R) : tfun := t_compose (t_compose (t_NegativeBinomial gl 4 1) (t_Exp :: nil)) (linear2 :: nil).
Definition negbin2o (gl : R -> R) : tobj := ETModel.o_compose (ETModel.o_compose (o_NegativeBinomial gl 4 1) (ETModel.o_Exp :: nil)) (linear2o 0 :: nil).
Lemma flat23 : flat ([2; 3]%nat, @nil nat) = [2; 3]%nat. Proof. reflexivity. Qed.
Lemma nb_outer gl : outer (flat ([2; 3]%nat, @nil nat), []) (4 :: nil)%nat (posP ([2; 3]%nat, [])) (t_NegativeBinomial gl 4 1).
Proof. apply (negbin_outer gl 4 1 ([2; 3]%nat, [])); [repeat constructor|discriminate|lia|lra]. Qed.
Lemma nb_eouter gl : eouter (flat ([2; 3]%nat, @nil nat), []) (4 :: nil)%nat (posP ([2; 3]%nat, [])) (o_NegativeBinomial gl 4 1).
Proof. apply (negbin_eouter gl 4 1 ([2; 3]%nat, [])); [repeat constructor|discriminate|lia|lra]. Qed.
(** the rates are positive, as Exp makes them *)
Lemma rate_pos ps : are_pars two_axes ps -> forall v, t_call linear2 ps = Ok v -> anyP (v :: nil) /\ forall w, t_call t_Exp (v :: nil) = Ok w -> posP ([2; 3]%nat, []) (w :: nil).
Proof.
  intros A v Ev. split; [exact I|]. intros w Ew x Hx. cbn [nth]. unfold flat in Hx. cbn [fst snd] in Hx. rewrite app_nil_r in Hx.
  destruct (C74_compose _ _ _ _ _ t_Exp linear2 ps linear2_built A I) as (v' & Ev' & Pv & Ec & _). rewrite Ev in Ev'. injection Ev' as <-. fold rate2 in Ec. rewrite Ew in Ec.
  destruct (C74_compose _ _ _ _ _ t_X rate2 ps rate2_built A I) as (w' & Ew' & Pw & _ & Vw). rewrite Ec in Ew'. injection Ew' as <-.
  pose proof (Vw x [] Hx (or_introl eq_refl)) as E. rewrite app_nil_r in E. rewrite E, Ec. rewrite <- Ew. rewrite (proj1 (C74_primitives [2; 3]%nat v x ltac:(repeat constructor) Pv Hx)). apply exp_pos.
Qed.
Lemma negbin2_built gl : tbuilt two_axes ([2; 3]%nat, (4 :: nil)%nat) (are_pars two_axes) [0%nat; 1%nat] (fun _ => true) false (negbin2 gl).
Proof.
  refine (tb_domain _ _ _ (are_pars two_axes) _ _ _ _ _ (left_built two_axes ([2; 3]%nat, []) (4 :: nil)%nat (posP ([2; 3]%nat, [])) anyP anyP _ _ _ _ _ pos_two ltac:(discriminate) dep23 (nb_outer gl) o2_23 linear2_built)).
  intros ps A. split; [exact I|]. intros v Ev. exact (rate_pos ps A v Ev).
Qed.
Example C86_nonvacuous : forall gl u v, (forall j, gl (INR (S j)) = ln (INR (fact j))) ->
  t_correct two_axes ([2; 3]%nat, (4 :: nil)%nat) (are_pars two_axes) (negbin2 gl) /\
  o_f (negbin2o gl) = negbin2 gl /\ eval_agrees two_axes ([2; 3]%nat, (4 :: nil)%nat) (negbin2o gl) [vec 2 u; vec 3 v] /\
  forall i j k, (i < 2)%nat -> (j < 3)%nat -> (k < 4)%nat ->
    let m := exp (u i + v j) in
    at_res (t_call (negbin2 gl) [vec 2 u; vec 3 v]) [] [] [i; j] (k :: nil) = 1 / (1 + m) * (m / (1 + m)) ^ k.
Proof.
  intros gl u v G. split; [exact (tbuilt_correct _ _ _ _ _ _ _ (negbin2_built gl))|]. split; [reflexivity|]. split.
  - refine (proj1 (C85_grouping_eval two_axes ([2; 3]%nat, []) (4 :: nil)%nat (posP ([2; 3]%nat, [])) anyP anyP _ _ (o_NegativeBinomial gl 4 1) ETModel.o_Exp (linear2o 0) pos_two ltac:(discriminate) dep23' (nb_eouter gl) _ linear2o_built _ (vecs_par u v) I _)).
    + apply (eo_Exp [2; 3]%nat). repeat constructor.
    + exact (rate_pos _ (vecs_par u v)).
  - intros i j k Hi Hj Hk m. assert (I2 : In [i; j] (indices [2; 3]%nat)) by (apply In_indices; constructor; [exact Hi|constructor; [exact Hj|constructor]]).
    unfold negbin2. rewrite (C85_same_value (t_NegativeBinomial gl 4 1) t_Exp linear2). fold rate2.
    destruct (C74_compose _ _ _ _ _ (t_NegativeBinomial gl 4 1) rate2 _ rate2_built (vecs_par u v) I) as (w & Ew & Pw & Ec & Vw). rewrite Ec.
    assert (Em : forall x y, (x < 2)%nat -> (y < 3)%nat -> pentry w [x; y] = exp (u x + v y)).
    { intros x y Hx Hy. assert (J : In [x; y] (indices [2; 3]%nat)) by (apply In_indices; constructor; [exact Hx|constructor; [exact Hy|constructor]]).
      pose proof (Vw [x; y] [] J (or_introl eq_refl)) as E. rewrite app_nil_r in E. rewrite E. exact (C74_nonvacuous u v x y Hx Hy). }
    pose proof (C86_pmf gl 4 0 ([2; 3]%nat, []) w [i; j] k G ltac:(repeat constructor) Hk Pw) as V. cbn [INR] in V. rewrite V; [| |exact I2].
    + rewrite (Em i j Hi Hj). fold m. rewrite Nat.add_0_r. cbn [fact INR pow]. pose proof (fact_pos k). assert (0 < m) by apply exp_pos. field_simplify_eq; [|repeat split; lra]. ring.
    + intros x Hx. apply In_indices in Hx. inversion Hx as [|a b l1 l2 H1 H2]; subst. inversion H2 as [|a' b' l1' l2' H3 H4]; subst. inversion H4; subst. rewrite Em by assumption. apply exp_pos.
Qed.
Print Assumptions C86_nonvacuous.

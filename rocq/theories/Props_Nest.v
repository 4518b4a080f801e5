(** C85: grouping of [@].  Python reads [f1 @ f2 @ g] as [(f1 @ f2) @ g]. *)
From Verif Require Import Prelude DenseModel AnalyticSpec NDArray NDProofs TensorModel TensorSpec FuncModel FuncSpec FTModel FTSpec FTFindings FTWrap FTBuilt FTAssoc DenseProofs LTModel ETModel ETSpec ETBuilt Props_FT Props_ET.
From Coquelicot Require Import Coquelicot.
From Coq Require Import Reals Lra Lia.
Import List ListNotations.
Open Scope R_scope.
#[local] Existing Instance loose.

(** the values are the same, and so are the exceptions, for any three functions *)
Theorem C85_same_value : forall f1 f2 g ps, t_call (t_compose (t_compose f1 (f2 :: nil)) (g :: nil)) ps = t_call (t_compose f1 (t_compose f2 (g :: nil) :: nil)) ps.
Proof. exact same_value. Qed.
Print Assumptions C85_same_value.
(** both have right derivatives, the same gradients and the same Hessians *)
Theorem C85_grouping : forall ss s E D1 D2 Dg mf dep f1 f2 g,
  Forall (fun s => posl (flat s)) ss -> flat s <> [] -> (forall i, (i < length ss)%nat -> dep i = true) ->
  outer (flat s, []) E D1 f1 -> outer s [] D2 f2 -> tbuilt ss s Dg mf dep false g ->
  let left := t_compose (t_compose f1 (f2 :: nil)) (g :: nil) in
  let right := t_compose f1 (t_compose f2 (g :: nil) :: nil) in
  let D ps := Dg ps /\ forall v, t_call g ps = Ok v -> D2 (v :: nil) /\ forall w, t_call f2 (v :: nil) = Ok w -> D1 (w :: nil) in
  t_correct ss (flat s, E) D left /\ t_correct ss (flat s, E) D right /\
  forall ps, are_pars ss ps -> D ps -> forall i x n d, (i < length ss)%nat -> In x (indices (flat (nth i ss ([], [])))) -> In n (indices (flat s)) -> In d (indices E) ->
    at_res (t_grad left ps i) x [] n d = at_res (t_grad right ps i) x [] n d /\
    forall j y, (j <= i)%nat -> In y (indices (flat (nth j ss ([], [])))) ->
      at_res (t_hess left ps i j) x y n d = at_res (t_hess right ps i j) x y n d.
Proof.
  intros ss s E D1 D2 Dg mf dep f1 f2 g Pss NK Dep O1 O2 Bg left right D.
  split; [exact (tbuilt_correct _ _ _ _ _ _ _ (left_built ss s E D1 D2 Dg mf dep f1 f2 g Pss NK Dep O1 O2 Bg))|].
  split; [exact (tbuilt_correct _ _ _ _ _ _ _ (right_built ss s E D1 D2 Dg mf dep f1 f2 g Pss NK Dep O1 O2 Bg))|].
  intros ps A d0 i x n d Hi Hx Hn Hd. split.
  - exact (same_grad ss s E D1 D2 Dg mf dep f1 f2 g Pss NK Dep O1 O2 Bg ps i x n d A d0 Hi Hx Hn Hd).
  - intros j y Hj Hy. exact (same_hess ss s E D1 D2 Dg mf dep f1 f2 g Pss NK Dep O1 O2 Bg ps i j x y n d A d0 Hi Hj Hx Hy Hn Hd).
Qed.
Print Assumptions C85_grouping.

(** eval, for both groupings, returns what the methods return *)
Theorem C85_grouping_eval : forall ss s E D1 D2 Dg mf dep f1 f2 g,
  Forall (fun s => posl (flat s)) ss -> flat s <> [] -> (forall i, (i < length ss)%nat -> dep i = true) ->
  eouter (flat s, []) E D1 f1 -> eouter s [] D2 f2 -> ebuilt ss s Dg mf dep false g ->
  forall ps, are_pars ss ps -> Dg ps -> (forall v, t_call (o_f g) ps = Ok v -> D2 (v :: nil) /\ forall w, t_call (o_f f2) (v :: nil) = Ok w -> D1 (w :: nil)) ->
  eval_agrees ss (flat s, E) (ETModel.o_compose (ETModel.o_compose f1 (f2 :: nil)) (g :: nil)) ps /\
  eval_agrees ss (flat s, E) (ETModel.o_compose f1 (ETModel.o_compose f2 (g :: nil) :: nil)) ps.
Proof.
  intros ss s E D1 D2 Dg mf dep f1 f2 g Pss NK Dep O1 O2 Bg ps A d dv. split.
  - refine (ebuilt_agrees _ _ _ _ _ _ _ ps (eb_compose ss s E _ Dg mf dep _ g Pss NK Dep (eo_comp s E D1 D2 f1 f2 NK O1 O2) Bg) A _).
    split; [|exact d]. intros v Ev. destruct (dv v Ev) as [d2 d1]. split; [exact d1|exact d2].
  - pose proof (eb_compose ss (flat s, []) E D1 _ mf (fun _ => true) f1 _ Pss ltac:(rewrite fl0; exact NK) (fun _ _ => eq_refl) O1 (eb_compose ss s [] D2 Dg mf dep f2 g Pss NK Dep O2 Bg)) as T.
    rewrite fl0 in T. refine (ebuilt_agrees _ _ _ _ _ _ _ ps T A _). split; [|split; [|exact d]].
    + intros w Ew. cbn [ETModel.o_compose o_f map] in Ew. rewrite comp1 in Ew. destruct (t_call (o_f g) ps) as [v|] eqn:Ev; [|discriminate Ew]. exact (proj2 (dv v eq_refl) w Ew).
    + intros v Ev. exact (proj1 (dv v Ev)).
Qed.
Print Assumptions C85_grouping_eval.

(** Poisson(4) @ Exp() @ (a + b), as Python groups it *)
Definition poisson2' : tfun := t_compose (t_compose (t_Poisson 4) (t_Exp :: nil)) (linear2 :: nil).
Lemma o1_23 : outer (flat ([2; 3]%nat, @nil nat), []) (4 :: nil)%nat anyP (t_Poisson 4).
Proof. apply FTBuilt.o_Poisson; [repeat constructor|lia]. Qed.
Lemma o2_23 : outer ([2; 3]%nat, []) [] anyP t_Exp.
Proof. apply (FTBuilt.o_Exp [2; 3]%nat). repeat constructor. Qed.
Lemma dep23 i : (i < length two_axes)%nat -> existsb (fun a => ta_dep a i) atoms2 = true.
Proof. destruct i as [|[|i]]; intros Hi; [reflexivity|reflexivity|cbn in Hi; lia]. Qed.
Definition poisson2o' : tobj := ETModel.o_compose (ETModel.o_compose (ETModel.o_Poisson 4) (ETModel.o_Exp :: nil)) (linear2o 0 :: nil).
Lemma dep23' i : (i < length two_axes)%nat -> existsb (fun a => ea_dep a i) eatoms2 = true.
Proof. destruct i as [|[|i]]; intros Hi; [reflexivity|reflexivity|cbn in Hi; lia]. Qed.
Lemma poisson2'_built : tbuilt two_axes ([2; 3]%nat, (4 :: nil)%nat) anyP [0%nat; 1%nat] (fun _ => true) false poisson2'.
Proof.
  refine (tb_domain _ _ _ anyP _ _ _ _ _ (left_built two_axes ([2; 3]%nat, []) (4 :: nil)%nat anyP anyP anyP _ _ _ _ _ pos_two ltac:(discriminate) dep23 o1_23 o2_23 linear2_built)).
  intros ps _. split; [exact I|]. intros; split; [exact I|]. intros; exact I.
Qed.
Example C85_nonvacuous : forall u v,
  t_correct two_axes ([2; 3]%nat, (4 :: nil)%nat) anyP poisson2' /\
  (forall i j k, (i < 2)%nat -> (j < 3)%nat -> (k < 4)%nat ->
    at_res (t_grad poisson2' [vec 2 u; vec 3 v] 0) (1%nat :: nil) [] [i; j] (k :: nil) = at_res (t_grad poisson2 [vec 2 u; vec 3 v] 0) (1%nat :: nil) [] [i; j] (k :: nil) /\
    at_res (t_hess poisson2' [vec 2 u; vec 3 v] 1 0) (2%nat :: nil) (1%nat :: nil) [i; j] (k :: nil) = at_res (t_hess poisson2 [vec 2 u; vec 3 v] 1 0) (2%nat :: nil) (1%nat :: nil) [i; j] (k :: nil)) /\
  (forall i j k, (i < 2)%nat -> (j < 3)%nat -> (k < 4)%nat ->
    at_res (t_call poisson2' [vec 2 u; vec 3 v]) [] [] [i; j] (k :: nil) = exp (u i + v j) ^ k / INR (fact k)) /\
  o_f poisson2o' = poisson2' /\ eval_agrees two_axes ([2; 3]%nat, (4 :: nil)%nat) poisson2o' [vec 2 u; vec 3 v].
Proof.
  intros u v. split; [exact (tbuilt_correct _ _ _ _ _ _ _ poisson2'_built)|]. split; [|split; [|split; [reflexivity|]]].
  - intros i j k Hi Hj Hk. pose proof (vecs_par u v) as A.
    destruct (C85_grouping two_axes ([2; 3]%nat, []) (4 :: nil)%nat anyP anyP anyP _ _ (t_Poisson 4) t_Exp linear2 pos_two ltac:(discriminate) dep23 o1_23 o2_23 linear2_built) as (_ & _ & H).
    assert (d : anyP [vec 2 u; vec 3 v] /\ forall w, t_call linear2 [vec 2 u; vec 3 v] = Ok w -> anyP (w :: nil) /\ forall z, t_call t_Exp (w :: nil) = Ok z -> anyP (z :: nil)).
    { split; [exact I|]. intros; split; [exact I|]. intros; exact I. }
    assert (I2 : In [i; j] (indices [2; 3]%nat)) by (apply In_indices; constructor; [exact Hi|constructor; [exact Hj|constructor]]).
    assert (I1 : In (k :: nil) (indices (4 :: nil)%nat)) by (apply In_indices; constructor; [exact Hk|constructor]).
    split.
    + apply (proj1 (H _ A d 0%nat (1%nat :: nil) [i; j] (k :: nil) ltac:(cbn; lia) ltac:(cbn; auto) I2 I1)).
    + apply (proj2 (H _ A d 1%nat (2%nat :: nil) [i; j] (k :: nil) ltac:(cbn; lia) ltac:(cbn; auto) I2 I1) 0%nat (1%nat :: nil) ltac:(lia) ltac:(cbn; auto)).
  - intros i j k Hi Hj Hk. assert (I2 : In [i; j] (indices [2; 3]%nat)) by (apply In_indices; constructor; [exact Hi|constructor; [exact Hj|constructor]]).
    unfold poisson2'. rewrite (C85_same_value (t_Poisson 4) t_Exp linear2).
    destruct (C74_compose _ _ _ _ _ (t_Poisson 4) rate2 _ rate2_built (vecs_par u v) I) as (w & Ew & Pw & Ec & Vw).
    change (t_compose t_Exp (linear2 :: nil)) with rate2. rewrite Ec.
    rewrite (C74_poisson 4 ([2; 3]%nat, []) w [i; j] k ltac:(repeat constructor) Hk Pw I2).
    pose proof (Vw [i; j] [] I2 (or_introl eq_refl)) as E. rewrite app_nil_r in E. rewrite E. rewrite (C74_nonvacuous u v i j Hi Hj). reflexivity.
  - refine (proj1 (C85_grouping_eval two_axes ([2; 3]%nat, []) (4 :: nil)%nat anyP anyP anyP _ _ (ETModel.o_Poisson 4) ETModel.o_Exp (linear2o 0) pos_two ltac:(discriminate) dep23' _ _ linear2o_built _ (vecs_par u v) I _)).
    + apply eo_Poisson; [repeat constructor|lia].
    + apply (eo_Exp [2; 3]%nat). repeat constructor.
    + intros; split; [exact I|]. intros; exact I.
Qed.
Print Assumptions C85_nonvacuous.

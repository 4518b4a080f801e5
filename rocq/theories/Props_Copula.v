(** Properties C40-C42 (copulas). *)
From Coq Require Import Reals List Lra Lia.
From Coquelicot Require Import Coquelicot.
From Verif Require Import Prelude AnalyticSpec CopulaModel CopulaSpec CopulaProofs CopulaFamilies.
Import List ListNotations.
Local Open Scope R_scope.

Lemma lsum_Rsum {A} (f : A -> R) (l : list A) : lsum (map f l) = Rsum f l.
Proof. induction l as [|a l IH]; cbn [map lsum]; [reflexivity|now rewrite Rsum_cons, IH]. Qed.
Lemma lsum_total l : lsum l = total l.
Proof. unfold total. rewrite <- lsum_Rsum. now rewrite map_id. Qed.
Lemma marginal_good l : marginal l -> good l.
Proof. intros [H1 H2]. split; [exact H1|now rewrite <- lsum_total]. Qed.
(** What the constructor accepts, per family (independent of the model). *)
Definition admissible (f : family) (rho : R) : Prop :=
  match f with FClayton => 0 < rho | FGumbel => 1 <= rho | FFrank => rho <> 0 | FAkiMikhailHaq => -1 <= rho <= 1 end.
(** numpy computes 0/0 = nan for AkiMikhailHaq(1) when both first weights are 0. *)
Definition no_nan (f : family) (rho : R) (px py : list R) : Prop :=
  match f with FAkiMikhailHaq => rho < 1 \/ 0 < nth 0 px 0 \/ 0 < nth 0 py 0 | _ => True end.
Lemma new_admissible f rho : (admissible f rho -> new f rho = Ok rho) /\ (~ admissible f rho -> new f rho = Raise AssertionError).
Proof.
  destruct f; cbn; unfold clayton_new, gumbel_new, frank_new, amh_new;
  repeat match goal with |- context [if ?b then _ else _] => destruct b end; split; intros; try reflexivity; exfalso; try lra; auto.
Qed.
Lemma cdf_facts f rho : admissible f rho -> grounded (cdf f rho) /\ uniform_margins (cdf f rho) /\ two_increasing (cdf f rho).
Proof.
  destruct f; cbn; intros H; (split; [|split]);
  first [now apply clayton_grounded|now apply clayton_margins|now apply clayton_two_increasing
        |now apply gumbel_grounded|now apply gumbel_margins|now apply gumbel_two_increasing
        |now apply frank_grounded|now apply frank_margins|now apply frank_two_increasing
        |now apply amh_grounded|now apply amh_margins|now apply amh_two_increasing].
Qed.
Lemma joint_margins C px py : uniform_margins C -> marginal px -> marginal py -> has_margins (joint C px py) px py.
Proof.
  intros HU Hx Hy. apply marginal_good in Hx. apply marginal_good in Hy.
  destruct (copula_joint C px py HU Hx Hy) as (L & Hr & Hc & Ht).
  unfold has_margins, matrix_of, column. rewrite !lsum_total. split; [split; [exact L|]|].
  - intros row Hin. apply (In_nth _ _ []) in Hin. destruct Hin as (i & Hi & <-). apply Hr. now rewrite <- L.
  - split; [intros i Hi; rewrite lsum_total; now apply Hr|]. split.
    + intros j Hj. rewrite lsum_Rsum. now apply Hc.
    + rewrite <- Ht, <- lsum_Rsum, <- lsum_total. f_equal. apply map_ext. exact lsum_total.
Qed.

Theorem C40_margins : forall f rho px py,
  admissible f rho -> no_nan f rho px py -> marginal px -> marginal py ->
  exists J, call f rho px py = Ok J /\ has_margins J px py.
Proof.
  intros f rho px py Ha _ Hx Hy. unfold call. rewrite (proj1 (new_admissible f rho) Ha). cbn [rbind].
  eexists. split; [reflexivity|]. apply joint_margins; auto. now apply cdf_facts.
Qed.
Print Assumptions C40_margins.
(** Other parameters are refused by the constructor. *)
Theorem C40_refused : forall f rho px py, ~ admissible f rho -> call f rho px py = Raise AssertionError.
Proof. intros f rho px py H. unfold call. now rewrite (proj2 (new_admissible f rho) H). Qed.
Print Assumptions C40_refused.

Theorem C41_nonneg : forall f rho px py J,
  admissible f rho -> no_nan f rho px py -> marginal px -> marginal py ->
  call f rho px py = Ok J -> forall row x, In row J -> In x row -> 0 <= x.
Proof.
  intros f rho px py J Ha _ Hx Hy HJ row x Hr Hin.
  unfold call in HJ. rewrite (proj1 (new_admissible f rho) Ha) in HJ. cbn [rbind] in HJ. inversion HJ; subst J.
  destruct (joint_margins (cdf f rho) px py) as [[L1 L2] _]; auto. { now apply cdf_facts. }
  pose proof (L2 row Hr) as L3.
  apply (In_nth _ _ []) in Hr. destruct Hr as (i & Hi & <-).
  apply (In_nth _ _ 0) in Hin. destruct Hin as (j & Hj & <-).
  apply copula_joint_nonneg; try (apply cdf_facts; exact Ha); try now apply marginal_good.
  - now rewrite <- L1.
  - now rewrite <- L3.
Qed.
Print Assumptions C41_nonneg.

Theorem C42_gumbel1 : forall px py, marginal px -> marginal py ->
  exists J, call FGumbel 1 px py = Ok J /\ independent J px py.
Proof.
  intros px py Hx Hy. unfold call. rewrite (proj1 (new_admissible FGumbel 1)) by (cbn; lra). cbn [rbind cdf].
  eexists. split; [reflexivity|]. intros i j Hi Hj. apply marginal_good in Hx. apply marginal_good in Hy.
  rewrite !lsum_total. unfold entry. rewrite (joint_ext (gumbel 1) Rmult) by (auto; intros; now apply gumbel_1).
  now apply joint_product.
Qed.
Print Assumptions C42_gumbel1.
Theorem C42_amh0 : forall px py, marginal px -> marginal py ->
  exists J, call FAkiMikhailHaq 0 px py = Ok J /\ independent J px py.
Proof.
  intros px py Hx Hy. unfold call. rewrite (proj1 (new_admissible FAkiMikhailHaq 0)) by (cbn; lra). cbn [rbind cdf].
  eexists. split; [reflexivity|]. intros i j Hi Hj. apply marginal_good in Hx. apply marginal_good in Hy.
  rewrite !lsum_total. unfold entry. rewrite (joint_ext (amh 0) Rmult) by (auto; intros; apply amh_0).
  now apply joint_product.
Qed.
Print Assumptions C42_amh0.
(** Finding: the docstring of AkiMikhailHaq says it degenerates into independence
    for a = 1.  With two binary marginals, neither of them degenerate, it is never
    independent there. *)
Theorem C42_amh1_not_independent : forall a b c d, 0 < a -> 0 < b -> 0 < c -> 0 < d ->
  exists J, call FAkiMikhailHaq 1 [a; b] [c; d] = Ok J /\ ~ independent J [a; b] [c; d].
Proof.
  intros a b c d Ha Hb Hc Hd. unfold call. rewrite (proj1 (new_admissible FAkiMikhailHaq 1)) by (cbn; lra). cbn [rbind cdf].
  eexists. split; [reflexivity|]. intros H. specialize (H 0%nat 0%nat ltac:(cbn; lia) ltac:(cbn; lia)).
  cbn in H. unfold amh in H.
  set (u := a / (a + b)) in *. set (v := c / (c + d)).
  assert (Hu : 0 < u < 1).
  { unfold u. split; [apply Rdiv_lt_0_compat; lra|]. apply (Rmult_lt_reg_r (a + b)); [lra|]. field_simplify; lra. }
  assert (Hv : 0 < v < 1).
  { unfold v. split; [apply Rdiv_lt_0_compat; lra|]. apply (Rmult_lt_reg_r (c + d)); [lra|]. field_simplify; lra. }
  replace ((0 + a) / (0 + a + b)) with u in H by (unfold u; rewrite Rplus_0_l; reflexivity).
  replace ((0 + c) / (0 + c + d)) with v in H by (unfold v; rewrite Rplus_0_l; reflexivity).
  replace (a / (a + (b + 0))) with u in H by (unfold u; now rewrite Rplus_0_r).
  replace (c / (c + (d + 0))) with v in H by (unfold v; now rewrite Rplus_0_r).
  set (den := 1 - 1 * (1 - u) * (1 - v)) in H.
  assert (Hd0 : 0 < den < 1) by (unfold den; nra).
  assert (E : u * v / den = u * v) by lra.
  assert (u * v = u * v * den) by (rewrite <- E at 2; field; lra).
  assert (0 < u * v) by nra. nra.
Qed.
Print Assumptions C42_amh1_not_independent.

(** C66: the joint distribution function of the returned matrix is the documented
    copula, evaluated at the two marginal distribution functions. *)
Lemma Rsum_firstn {A} (f : A -> R) (l : list A) d : forall k, (k <= length l)%nat ->
  Rsum f (firstn k l) = Rsum (fun i => f (nth i l d)) (seq 0 k).
Proof.
  induction l as [|a l IH]; intros [|k] H; try reflexivity; [cbn in H; lia|].
  cbn [firstn seq]. rewrite !Rsum_cons. cbn [nth]. f_equal. rewrite IH by (cbn in H; lia).
  rewrite <- seq_shift, Rsum_map. reflexivity.
Qed.
Lemma joint_cum_eq C px py i j : (i < length px)%nat -> (j < length py)%nat ->
  joint_cum (joint C px py) i j = C (cum px i / lsum px) (cum py j / lsum py).
Proof.
  intros Hi Hj. unfold joint_cum. rewrite lsum_Rsum, (Rsum_firstn _ _ []) by (rewrite joint_length; lia).
  rewrite (Rsum_ext _ (fun i' => Rsum (fun j' => nth j' (nth i' (joint C px py) []) 0) (seq 0 (S j)))).
  - rewrite joint_cdf by assumption. unfold coord, prefix, cum. now rewrite !lsum_total.
  - intros i' Hin. apply in_seq in Hin. unfold cum. rewrite lsum_total. unfold total.
    rewrite (Rsum_firstn _ _ 0); [reflexivity|]. rewrite (proj1 (joint_row C px py i' ltac:(lia))). lia.
Qed.
Theorem C66_cdf : forall f rho px py i j u v,
  admissible f rho -> marginal px -> marginal py -> (i < length px)%nat -> (j < length py)%nat ->
  u = cum px i / lsum px -> v = cum py j / lsum py -> 0 < u -> 0 < v -> (f = FGumbel -> u < 1 /\ v < 1) ->
  exists J, call f rho px py = Ok J /\
  joint_cum J i j = match f with
                    | FClayton => doc_clayton rho u v
                    | FGumbel => doc_gumbel rho u v
                    | FFrank => doc_frank rho u v
                    | FAkiMikhailHaq => doc_amh rho u v
                    end.
Proof.
  intros f rho px py i j u v Ha Hx Hy Hi Hj Eu Ev Hu Hv Hg. unfold call. rewrite (proj1 (new_admissible f rho) Ha). cbn [rbind].
  eexists. split; [reflexivity|]. rewrite joint_cum_eq by assumption. rewrite <- Eu, <- Ev.
  destruct f; cbn [cdf].
  - cbn in Ha. unfold clayton, doc_clayton. destruct (Rle_dec u 0); [lra|]. destruct (Rle_dec v 0); [lra|].
    f_equal. field. lra.
  - destruct (Hg eq_refl) as [Hu1 Hv1]. rewrite gumbel_in by assumption. unfold doc_gumbel.
    assert (0 < - ln u) by (assert (ln u < ln 1) by (apply ln_increasing; lra); rewrite ln_1 in *; lra).
    assert (0 < - ln v) by (assert (ln v < ln 1) by (apply ln_increasing; lra); rewrite ln_1 in *; lra).
    rewrite !npow_pos; try assumption; [reflexivity|].
    rewrite !npow_pos; try assumption. pose proof (Rpower_pos (- ln u) rho). pose proof (Rpower_pos (- ln v) rho). lra.
  - cbn in Ha. unfold frank, doc_frank. replace (- rho * u) with (- (rho * u)) by ring. replace (- rho * v) with (- (rho * v)) by ring.
    f_equal. field. exact Ha.
  - reflexivity.
Qed.
Print Assumptions C66_cdf.
Example C40_nonvacuous : marginal [1; 2] /\ marginal [1; 1; 2] /\
  admissible FAkiMikhailHaq (1 / 2) /\ no_nan FAkiMikhailHaq (1 / 2) [1; 2] [1; 1; 2] /\
  admissible FClayton 2 /\ admissible FGumbel 2 /\ admissible FFrank (-1) /\
  (exists J, call FAkiMikhailHaq (1 / 2) [1; 2] [1; 1; 2] = Ok J /\ entry J 0 0 = 1 / 9).
Proof.
  unfold marginal; cbn [In lsum]. repeat match goal with |- _ /\ _ => split end; cbn; try lra.
  - intros x [<-|[<-|[]]]; lra.
  - intros x [<-|[<-|[<-|[]]]]; lra.
  - unfold call. rewrite (proj1 (new_admissible FAkiMikhailHaq (1/2))) by (cbn; lra). cbn [rbind cdf].
    eexists; split; [reflexivity|]. unfold entry, joint, normcum. cbn. unfold amh. field.
Qed.

(** Aggregated data (C24), concavity and normalisation of the likelihoods. *)
From Coq Require Import Reals List Lra Lia Psatz.
From Coquelicot Require Import Coquelicot.
From Verif Require Import AnalyticSpec LikeModel LikeProofs.
Import List ListNotations.
Local Open Scope R_scope.

(** Textbook probability mass functions. *)
Definition poisson_pmf (lam : R) (x : nat) : R := exp (- lam) * lam ^ x / INR (fact x).
Definition zip_pmf (s lam : R) (x : nat) : R :=
  match x with
  | O => s / (exp lam + s - 1)
  | _ => lam ^ x / (INR (fact x) * (exp lam + s - 1))
  end.
Definition bernoulli_pmf (p : R) (x : nat) : R := match x with O => 1 - p | _ => p end.
Fixpoint rising (r : R) (x : nat) : R := match x with O => 1 | S n => rising r n * (r + INR n) end.
(** mean m, size r: Gamma(x+r)/(x! Gamma(r)) (r/(r+m))^r (m/(r+m))^x *)
Definition negbin_pmf (r m : R) (x : nat) : R :=
  rising r x / INR (fact x) * Rpower (r / (r + m)) r * (m / (r + m)) ^ x.

Section Agg.
Context {K : Type} (eq_dec : forall a b : K, {a = b} + {a <> b}).
Definition in_cell (k : K) (obs : list (K * nat)) : list (K * nat) :=
  filter (fun o => if eq_dec (fst o) k then true else false) obs.
(** The aggregates of a data set: count, sum, number of zeros per cell. *)
Definition countN (obs : list (K * nat)) (k : K) : R := INR (length (in_cell k obs)).
Definition sumX (obs : list (K * nat)) (k : K) : R := Rsum (fun o => INR (snd o)) (in_cell k obs).
Definition zerosZ (obs : list (K * nat)) (k : K) : R :=
  INR (length (filter (fun o => Nat.eqb (snd o) 0) (in_cell k obs))).

Definition loglik (pmf : R -> nat -> R) (y : K -> R) (obs : list (K * nat)) : R :=
  Rsum (fun o => ln (pmf (y (fst o)) (snd o))) obs.

Lemma Rsum_single (cells : list K) (k : K) (F : K -> R) : NoDup cells -> In k cells ->
  Rsum (fun j => if eq_dec k j then F j else 0) cells = F k.
Proof.
  induction cells as [|c cells IH]; intros Hn Hin; [destruct Hin|]. inversion Hn as [|? ? Hnin Hn']; subst.
  rewrite Rsum_cons. destruct (eq_dec k c) as [->|Hne].
  - rewrite Rsum_zero; [lra|]. intros j Hj. destruct (eq_dec c j) as [<-|]; [contradiction|reflexivity].
  - destruct Hin as [->|Hin]; [congruence|]. rewrite IH by auto. lra.
Qed.

Lemma sum_by_cell (cells : list K) (F : K -> nat -> R) : NoDup cells -> forall obs,
  Forall (fun o => In (fst o) cells) obs ->
  Rsum (fun o => F (fst o) (snd o)) obs = Rsum (fun k => Rsum (fun o => F k (snd o)) (in_cell k obs)) cells.
Proof.
  intros Hn. induction obs as [|[k0 x0] obs IH]; intros Hin.
  - symmetry. apply Rsum_zero. reflexivity.
  - inversion Hin as [|? ? H0 Hin']; subst. cbn [fst snd] in *. rewrite Rsum_cons, IH by auto. cbn [fst snd].
    rewrite (Rsum_ext (fun k => Rsum (fun o => F k (snd o)) (in_cell k ((k0, x0) :: obs)))
      (fun k => (if eq_dec k0 k then F k x0 else 0) + Rsum (fun o => F k (snd o)) (in_cell k obs))).
    + rewrite Rsum_plus. rewrite (Rsum_single cells k0 (fun k => F k x0)) by auto. reflexivity.
    + intros k _. cbn [in_cell filter fst]. destruct (eq_dec k0 k); [apply (Rsum_cons (fun o => F k (snd o)))|unfold in_cell; lra].
Qed.

Lemma sum_const (l : list (K * nat)) (c : R) : Rsum (fun _ => c) l = INR (length l) * c.
Proof. induction l as [|x l IH]; rewrite ?Rsum_cons; [cbn; lra|]. cbn [length]. rewrite IH, S_INR. lra. Qed.
Lemma sum_zero_ind (l : list (K * nat)) (c : R) :
  Rsum (fun o => match snd o with O => c | _ => 0 end) l = INR (length (filter (fun o => Nat.eqb (snd o) 0) l)) * c.
Proof.
  induction l as [|[k x] l IH]; [rewrite Rsum_nil; cbn; lra|]. rewrite Rsum_cons, IH. cbn [snd filter].
  destruct x; cbn [Nat.eqb length]; rewrite ?S_INR; lra.
Qed.

(** If log pmf = x a + [x = 0] b + c + d(x) with a, b, c depending on the model
    value only, the log-likelihood is the aggregated expression up to a term
    that does not depend on the model. *)
Lemma agg_generic cells obs (pmf : R -> nat -> R) (a b c : R -> R) (d : nat -> R) (e : K -> R) (ok : nat -> Prop) :
  NoDup cells -> Forall (fun o => In (fst o) cells /\ ok (snd o)) obs ->
  (forall y x, ok x -> ln (pmf y x) = INR x * a y + (match x with O => b y | _ => 0 end) + c y + d x) ->
  forall y, Rsum (fun k => sumX obs k * a (y k) + zerosZ obs k * b (y k) + countN obs k * c (y k) + e k) cells =
    loglik pmf y obs + (Rsum e cells - Rsum (fun o => d (snd o)) obs).
Proof.
  intros Hn Hin Hln y. unfold loglik.
  pose (G := fun k x => INR x * a (y k) + (match x with O => b (y k) | _ => 0 end) + c (y k) + d x).
  rewrite (Rsum_ext (fun o => ln (pmf (y (fst o)) (snd o))) (fun o => G (fst o) (snd o))).
  2:{ intros o Ho. rewrite Forall_forall in Hin. destruct (Hin o Ho). now apply Hln. }
  assert (Hin' : Forall (fun o => In (fst o) cells) obs) by (eapply Forall_impl; [|exact Hin]; cbn; tauto).
  rewrite (sum_by_cell cells G Hn obs Hin').
  rewrite (sum_by_cell cells (fun _ x => d x) Hn obs Hin').
  transitivity (Rsum (fun k => Rsum (fun o => INR (snd o) * a (y k) + (match snd o with O => b (y k) | _ => 0 end) + c (y k) + d (snd o)) (in_cell k obs)
      + (e k - Rsum (fun o => d (snd o)) (in_cell k obs))) cells).
  2:{ rewrite Rsum_plus, Rsum_minus. reflexivity. }
  apply Rsum_ext. intros k _. rewrite !Rsum_plus. rewrite Rsum_scal_r, sum_const, sum_zero_ind.
  unfold sumX, zerosZ, countN. ring.
Qed.

Lemma ln_pow_exp y x : ln (exp y ^ x) = INR x * y.
Proof.
  induction x as [|x IH]; [cbn; rewrite ln_1; lra|]. rewrite S_INR. cbn [pow].
  rewrite ln_mult; [rewrite IH, ln_exp; lra|apply exp_pos|apply pow_lt, exp_pos].
Qed.
Lemma ln_pow x n : 0 < x -> ln (x ^ n) = INR n * ln x.
Proof.
  intros Hx. induction n as [|n IH]; [cbn; rewrite ln_1; lra|]. rewrite S_INR. cbn [pow].
  rewrite ln_mult; [rewrite IH; lra|auto|apply pow_lt; auto].
Qed.
Lemma ln_div' a b : 0 < a -> 0 < b -> ln (a / b) = ln a - ln b.
Proof. intros Ha Hb. unfold Rdiv. rewrite ln_mult, ln_Rinv; auto using Rinv_0_lt_compat. Qed.
Lemma fact_pos x : 0 < INR (fact x).
Proof. apply lt_0_INR, lt_O_fact. Qed.

Lemma poisson_agg gammaln cells obs : NoDup cells -> Forall (fun o => In (fst o) cells) obs ->
  exists C, forall y, Poisson_like cells gammaln (sumX obs) (countN obs) y =
    loglik (fun y => poisson_pmf (exp y)) y obs + C.
Proof.
  intros Hn Hin. eexists. intros y.
  rewrite <- (agg_generic cells obs (fun y => poisson_pmf (exp y)) (fun y => y) (fun _ => 0) (fun y => - exp y)
     (fun x => - ln (INR (fact x))) (fun k => - gammaln (sumX obs k + 1)) (fun _ => True)); auto.
  - apply Rsum_ext. intros k _. ring.
  - eapply Forall_impl; [|exact Hin]. cbn; auto.
  - intros y0 x _. unfold poisson_pmf. pose proof (exp_pos y0). pose proof (exp_pos (- exp y0)). pose proof (pow_lt (exp y0) x ltac:(auto)).
    pose proof (fact_pos x). rewrite ln_div' by (auto; apply Rmult_lt_0_compat; auto).
    rewrite ln_mult by auto. rewrite ln_exp, ln_pow_exp. destruct x; ring.
Qed.

Lemma zip_agg gammaln s cells obs : 0 < s -> NoDup cells -> Forall (fun o => In (fst o) cells) obs ->
  exists C, forall y, ZIP_like cells gammaln s (sumX obs) (countN obs) (zerosZ obs) y =
    loglik (fun y => zip_pmf s (exp y)) y obs + C.
Proof.
  intros Hs Hn Hin. eexists. intros y.
  rewrite <- (agg_generic cells obs (fun y => zip_pmf s (exp y)) (fun y => y) (fun _ => ln s)
     (fun y => - ln (exp (exp y) + s - 1))
     (fun x => - ln (INR (fact x))) (fun k => - gammaln (sumX obs k + 1)) (fun _ => True)); auto.
  - apply Rsum_ext. intros k _. ring.
  - eapply Forall_impl; [|exact Hin]. cbn; auto.
  - intros y0 x _. pose proof (zip_den_pos s y0 ltac:(lra)) as Hd. unfold zip_pmf. destruct x as [|x].
    + rewrite ln_div' by auto. cbn [INR fact]. rewrite ln_1. ring.
    + pose proof (exp_pos y0). pose proof (pow_lt (exp y0) (S x) ltac:(auto)). pose proof (fact_pos (S x)).
      rewrite ln_div' by (auto; apply Rmult_lt_0_compat; auto). rewrite ln_mult by auto. rewrite ln_pow_exp. ring.
Qed.

Lemma logistic_agg cells obs : NoDup cells -> Forall (fun o => In (fst o) cells /\ (snd o <= 1)%nat) obs ->
  forall y, Logistic_like cells (sumX obs) (countN obs) y =
    loglik (fun y => bernoulli_pmf (1 / (1 + exp (- y)))) y obs.
Proof.
  intros Hn Hin y.
  pose proof (agg_generic cells obs (fun y => bernoulli_pmf (1 / (1 + exp (- y)))) (fun y => y) (fun _ => 0)
     (fun y => - ln (1 + exp (- y)) - y) (fun x => 0) (fun k => 0) (fun x => (x <= 1)%nat) Hn Hin) as HG.
  cbv beta in HG. rewrite (Rsum_zero (fun o => 0) obs), (Rsum_zero (fun k => 0) cells) in HG by reflexivity.
  replace (loglik _ y obs) with (loglik (fun y => bernoulli_pmf (1 / (1 + exp (- y)))) y obs + (0 - 0)) by ring.
  rewrite <- HG.
  - unfold Logistic_like. rewrite <- Rsum_opp. apply Rsum_ext. intros k _. ring.
  - intros y0 x Hx. pose proof (log_den_pos y0) as Hd. pose proof (exp_pos (- y0)). unfold bernoulli_pmf.
    destruct x as [|x].
    + replace (1 - 1 / (1 + exp (- y0))) with (exp (- y0) / (1 + exp (- y0))) by (field; lra).
      rewrite ln_div' by auto. rewrite ln_exp. cbn. ring.
    + assert (x = 0)%nat by lia. subst x. rewrite ln_div' by lra. rewrite ln_1. cbn. ring.
Qed.

Lemma rising_pos r x : 0 < r -> 0 < rising r x.
Proof.
  intros Hr. induction x as [|x IH]; cbn; [lra|]. apply Rmult_lt_0_compat; auto. pose proof (pos_INR x). lra.
Qed.
Lemma negbin_agg gammaln r cells obs : 0 < r -> NoDup cells -> Forall (fun o => In (fst o) cells) obs ->
  exists C, forall y, NegBin_like cells gammaln r (sumX obs) (countN obs) y =
    loglik (fun y => negbin_pmf r (exp y)) y obs + C.
Proof.
  intros Hr Hn Hin. eexists. intros y.
  rewrite <- (agg_generic cells obs (fun y => negbin_pmf r (exp y)) (fun y => y - ln (r + exp y)) (fun _ => 0)
     (fun y => - r * ln (r + exp y))
     (fun x => r * ln r + ln (rising r x) - ln (INR (fact x)))
     (fun k => gammaln (sumX obs k + r) - gammaln (sumX obs k + 1) + r * ln r - gammaln r) (fun _ => True)); auto.
  - apply Rsum_ext. intros k _. ring.
  - eapply Forall_impl; [|exact Hin]. cbn; auto.
  - intros y0 x _. pose proof (exp_pos y0) as He. assert (Hd : 0 < r + exp y0) by lra.
    pose proof (fact_pos x). pose proof (rising_pos r x Hr).
    assert (0 < r / (r + exp y0)) by (apply Rdiv_lt_0_compat; lra).
    assert (0 < exp y0 / (r + exp y0)) by (apply Rdiv_lt_0_compat; lra).
    unfold negbin_pmf. assert (0 < Rpower (r / (r + exp y0)) r) by apply exp_pos.
    assert (0 < rising r x / INR (fact x)) by (apply Rdiv_lt_0_compat; auto).
    rewrite ln_mult; [|apply Rmult_lt_0_compat; auto|apply pow_lt; auto].
    rewrite ln_mult by auto. rewrite ln_div' by auto. unfold Rpower. rewrite ln_exp. rewrite ln_pow by auto.
    rewrite !ln_div' by auto. rewrite ln_exp. destruct x; ring.
Qed.
End Agg.

(** Concavity for models that are linear in the parameters. *)
Section Concave.
Context {P K : Type}.
Variables (coords : list P) (cells : list K).
Definition quad (M : P -> P -> R) (v : P -> R) : R := Rsum (fun p => Rsum (fun q => v p * M p q * v q) coords) coords.

Lemma quad_cells (w : K -> R) (der : P -> K -> R) v :
  quad (fun p q => Rsum (fun k => der p k * der q k * w k) cells) v =
  Rsum (fun k => w k * (Rsum (fun p => der p k * v p) coords) ^ 2) cells.
Proof.
  unfold quad.
  rewrite (Rsum_ext _ (fun p => Rsum (fun k => w k * (der p k * v p) * Rsum (fun q => der q k * v q) coords) cells)).
  2:{ intros p _. rewrite (Rsum_ext _ (fun q => Rsum (fun k => v p * (der p k * der q k * w k) * v q) cells)).
      2:{ intros q _. rewrite Rsum_scal_r, Rsum_scal. reflexivity. }
      rewrite Rsum_swap. apply Rsum_ext. intros k _. rewrite <- Rsum_scal. apply Rsum_ext. intros; ring. }
  rewrite Rsum_swap. apply Rsum_ext. intros k _.
  rewrite Rsum_scal_r, Rsum_scal. ring.
Qed.

Lemma quad_nonpos (w : K -> R) der (M : P -> P -> R) v : (forall k, In k cells -> w k <= 0) ->
  (forall p q, M p q = Rsum (fun k => der p k * der q k * w k) cells) -> quad M v <= 0.
Proof.
  intros Hw HM. unfold quad. rewrite (Rsum_ext _ (fun p => Rsum (fun q => v p * Rsum (fun k => der p k * der q k * w k) cells * v q) coords))
    by (intros; apply Rsum_ext; intros; now rewrite HM).
  fold (quad (fun p q => Rsum (fun k => der p k * der q k * w k) cells) v). rewrite quad_cells.
  rewrite <- (Rsum_zero (fun _ : K => 0) cells) by reflexivity. apply Rsum_le. intros k Hk. specialize (Hw k Hk).
  pose proof (pow2_ge_0 (Rsum (fun p => der p k * v p) coords)). nra.
Qed.

Lemma poisson_concave X N y der v : (forall k, In k cells -> 0 <= N k) ->
  quad (fun p q => Poisson_hess cells X N y der (fun _ _ _ => 0) p q) v <= 0.
Proof.
  intros HN. apply (quad_nonpos (fun k => - (N k * exp (y k))) der).
  - intros k Hk. specialize (HN k Hk). pose proof (exp_pos (y k)). nra.
  - intros p q. apply Rsum_ext. intros. cbv zeta. ring.
Qed.
Lemma logistic_concave X N y der v : (forall k, In k cells -> 0 <= N k) ->
  quad (fun p q => Logistic_hess cells X N y der (fun _ _ _ => 0) p q) v <= 0.
Proof.
  intros HN. apply (quad_nonpos (fun k => - (1 / (1 + exp (- y k)) * (1 - 1 / (1 + exp (- y k))) * N k)) der).
  - intros k Hk. specialize (HN k Hk). pose proof (exp_pos (- y k)).
    assert (0 <= 1 / (1 + exp (- y k))) by (apply Rlt_le, Rdiv_lt_0_compat; lra).
    assert (1 / (1 + exp (- y k)) <= 1) by (apply Rmult_le_reg_r with (1 + exp (- y k)); [lra|]; field_simplify; lra).
    assert (0 <= 1 / (1 + exp (- y k)) * (1 - 1 / (1 + exp (- y k)))) by (apply Rmult_le_pos; lra).
    nra.
  - intros p q. apply Rsum_ext. intros. cbv zeta. ring.
Qed.
Lemma negbin_concave r X N y der v : 0 < r -> (forall k, In k cells -> 0 <= N k /\ 0 <= X k) ->
  quad (fun p q => NegBin_hess cells r X N y der (fun _ _ _ => 0) p q) v <= 0.
Proof.
  intros Hr HN. apply (quad_nonpos (fun k => let s := exp (y k) / (exp (y k) + r) in (X k + r * N k) * (s * s - s)) der).
  - intros k Hk. destruct (HN k Hk) as [H1 H2]. cbv zeta. pose proof (exp_pos (y k)).
    set (s := exp (y k) / (exp (y k) + r)).
    assert (0 <= s) by (apply Rlt_le, Rdiv_lt_0_compat; lra).
    assert (s <= 1) by (unfold s; apply Rmult_le_reg_r with (exp (y k) + r); [lra|]; field_simplify; lra).
    assert (0 <= X k + r * N k) by nra. assert (0 <= s * (1 - s)) by (apply Rmult_le_pos; lra). nra.
  - intros p q. apply Rsum_ext. intros. cbv zeta. ring.
Qed.
Lemma zip_concave s X N y der v : 0 <= s -> (forall k, In k cells -> 0 <= N k) ->
  quad (fun p q => ZIP_hess cells s X N y der (fun _ _ _ => 0) p q) v <= 0.
Proof.
  intros Hs HN. apply (quad_nonpos (fun k => let e := exp (y k) in let t := e / (1 + (s - 1) * exp (- e)) in
     - (N k * t * (1 + t * (s - 1) * exp (- e)))) der).
  - intros k Hk. specialize (HN k Hk). cbv zeta. set (e := exp (y k)). assert (He : 0 < e) by apply exp_pos.
    pose proof (zip_den2_pos s (y k) Hs) as Hd. fold e in Hd. set (E := exp (- e)) in *. assert (HE : 0 < E) by apply exp_pos.
    (* (1 + e) exp(-e) <= 1 *)
    assert (H1 : (1 + e) * E <= 1).
    { unfold E. rewrite exp_Ropp. apply Rmult_le_reg_r with (exp e); [apply exp_pos|].
      rewrite Rmult_assoc, Rinv_l by (apply Rgt_not_eq, exp_pos). pose proof (exp_ineq1_le e). lra. }
    set (t := e / (1 + (s - 1) * E)). assert (0 < t) by (apply Rdiv_lt_0_compat; lra).
    assert (0 <= 1 + t * (s - 1) * E).
    { unfold t. apply Rmult_le_reg_r with (1 + (s - 1) * E); [lra|].
      replace ((1 + e / (1 + (s - 1) * E) * (s - 1) * E) * (1 + (s - 1) * E)) with (1 + (s - 1) * E + e * (s - 1) * E) by (field; lra).
      replace (1 + (s - 1) * E + e * (s - 1) * E) with (1 - (1 + e) * E + s * ((1 + e) * E)) by ring.
      assert (0 <= (1 + e) * E) by (apply Rmult_le_pos; lra).
      assert (0 <= s * ((1 + e) * E)) by (apply Rmult_le_pos; lra). lra. }
    assert (0 <= N k * t) by nra. nra.
  - intros p q. apply Rsum_ext. intros. cbv zeta. ring.
Qed.
End Concave.

(** Normalisation. *)
Section Norm.
Context {K U : Type}.
Variables (feats : list K) (outs : list U).
Lemma finite_scale N y (c : K -> R) :
  (forall k, In k feats -> 0 < c k) -> (forall k u, In k feats -> In u outs -> 0 < y k u) ->
  Finite_like feats outs N (fun k u => c k * y k u) = Finite_like feats outs N y.
Proof.
  intros Hc Hy. unfold Finite_like, sum_all. apply Rsum_ext. intros k Hk. apply Rsum_ext. intros u Hu.
  assert (Hz : 0 < sum_dims outs y k).
  { apply Rsum_pos; [intros E; rewrite E in Hu; destruct Hu|]. intros; auto. }
  unfold sum_dims at 1. rewrite Rsum_scal. fold (sum_dims outs y k). rewrite !ln_mult by auto. ring.
Qed.
Lemma finite_normalized N y :
  (forall k u, In k feats -> In u outs -> 0 < y k u) ->
  Finite_like feats outs N y =
  NormFinite_like (list_prod feats outs) (fun ku => N (fst ku) (snd ku))
    (fun ku => y (fst ku) (snd ku) / Rsum (y (fst ku)) outs).
Proof.
  intros Hy. unfold Finite_like, NormFinite_like, sum_all.
  assert (E : forall (F : K -> U -> R) l, Rsum (fun ku => F (fst ku) (snd ku)) (list_prod l outs) = Rsum (fun k => Rsum (F k) outs) l).
  { induction l as [|k l IH]; [reflexivity|]. cbn [list_prod]. rewrite Rsum_app, IH, Rsum_cons, Rsum_map. reflexivity. }
  rewrite (E (fun k u => N k u * ln (y k u / Rsum (y k) outs))).
  apply Rsum_ext. intros k Hk. apply Rsum_ext. intros u Hu. f_equal. unfold sum_dims. symmetry. apply ln_div'; auto.
  apply Rsum_pos; [intros E'; rewrite E' in Hu; destruct Hu|]. intros; auto.
Qed.
End Norm.

(** The objective maximised by fit. *)
Lemma fold_minus (regs : list R) : forall a, fold_left Rminus regs a = a - Rsum (fun r => r) regs.
Proof. induction regs as [|r regs IH]; intros a; cbn [fold_left]; rewrite ?Rsum_cons, ?Rsum_nil; [lra|]. rewrite IH; lra. Qed.

Lemma objective_gradient {P} (coords : list P) (dom : (P -> R) -> Prop) (like : (P -> R) -> R) (glike : (P -> R) -> P -> R)
   (regs : list (((P -> R) -> R) * ((P -> R) -> P -> R))) (Nt : R) : Nt <> 0 ->
  gradient_on coords dom like glike ->
  (forall h, In h regs -> gradient_on coords dom (fst h) (snd h)) ->
  gradient_on coords dom (fun th => objective (like th) (map (fun h => fst h th) regs) Nt)
    (fun th p => (glike th p - Rsum (fun h => snd h th p) regs) / Nt).
Proof.
  intros HN Hl Hr c v t Hd Hc. unfold objective.
  apply (is_derive_ext (fun s => / Nt * (like (c s) - Rsum (fun h => fst h (c s)) regs))).
  { intros s. rewrite fold_minus, Rsum_map. unfold Rdiv. apply Rmult_comm. }
  eapply is_derive_eq.
  - apply D_scal, D_minus; [apply (Hl c v t Hd Hc)|].
    apply (is_derive_Rsum (fun s h => fst h (c s)) (fun h => Rsum (fun p => snd h (c t) p * v p) coords)).
    intros h Hh. apply (Hr h Hh c v t Hd Hc).
  - rewrite Rsum_swap, <- Rsum_minus, <- Rsum_scal. apply Rsum_ext. intros p _. rewrite Rsum_scal_r. field. auto.
Qed.

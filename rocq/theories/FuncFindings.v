(** Where the combinators do not do what their composition suggests. *)
From Verif Require Import Prelude DenseModel FuncModel AnalyticSpec FuncSpec DenseProofs FuncLemmas FuncAffine FuncSum FuncWrapP FuncCompose FuncProduct FuncPrim FuncCollapse FuncBuilt.
From Coquelicot Require Import Coquelicot.
From Coq Require Import Reals Lra Sorted.
Import List ListNotations.
Open Scope R_scope.

(** *** a param_map with a descending pair: eval raises IndexError *)
Lemma rmapM_index {A B} (g : A -> res B) l : (forall a, In a l -> (exists b, g a = Ok b) \/ g a = Raise IndexError) ->
  (exists a, In a l /\ g a = Raise IndexError) -> rmapM g l = Raise IndexError.
Proof.
  induction l as [|a l IH]; intros H (a0 & Hi & E); [destruct Hi|]. cbn.
  destruct (H a (or_introl eq_refl)) as [(b & Eb)|Eb]; rewrite Eb; cbn; auto.
  destruct Hi as [-> |Hi]; [congruence|]. rewrite IH; auto. - intros; apply H; cbn; auto. - eauto.
Qed.
Lemma rmapM_index_or {A B} (g : A -> res B) l : (forall a, In a l -> (exists b, g a = Ok b) \/ g a = Raise IndexError) ->
  (exists r, rmapM g l = Ok r) \/ rmapM g l = Raise IndexError.
Proof.
  induction l as [|a l IH]; intros H; cbn; [eauto|].
  destruct (H a (or_introl eq_refl)) as [(b & Eb)|Eb]; rewrite Eb; cbn; auto.
  destruct IH as [(r & ->)| ->]; [intros; apply H; cbn; auto| |]; cbn; eauto.
Qed.
Lemma rnth_or {A} (l : list A) k : (exists a, rnth l k = Ok a) \/ rnth l k = Raise IndexError.
Proof. unfold rnth. destruct (nth_error l k); eauto. Qed.

Theorem wrap_descending ss o w f p q : f_nullh f = false ->
  NoDup (w_pm w) -> Forall (fun i => i < length ss)%nat (w_pm w) ->
  eval_agrees (map (fun i => nth i ss ([], [])) (w_pm w)) o f ->
  (p < q < length (w_pm w))%nat -> (nth q (w_pm w) 0 < nth p (w_pm w) 0)%nat ->
  forall ps, has_sts ps ss -> f_eval (s_wrap w f) ps = Raise IndexError.
Proof.
  intros Nh Hn Hb E Hpq Hlt ps H. cbn [f_eval s_wrap]. unfold wrap_eval.
  assert (IM : imap (w_pm w) ps = Ok (map (fun i => nth i ps dzero) (w_pm w))) by (apply (imap_ok ss w Hb ps H)).
  rewrite IM. cbn [rbind].
  destruct (E (map (fun i => nth i ps dzero) (w_pm w))) as (v & gs & hs & Ee & _ & _ & Lg & Lh & R).
  { unfold has_sts. clear - Hb H. induction Hb; cbn; constructor; auto. now apply has_sts_nth. }
  rewrite map_length in *. rewrite Ee. cbn [rbind]. rewrite Nh.
  pose proof (has_sts_length _ _ H) as LP.
  assert (ROW : forall k, (k < length (w_pm w))%nat -> rnth hs k = Ok (nth k hs []) /\ length (nth k hs []) = S k).
  { intros k Hk. split; [apply rnth_ok; lia|]. apply R; auto. }
  assert (LN : forall i k, index_of i (w_pm w) = Some k -> forall j,
    (exists t, match index_of j (w_pm w) with None => Ok dzero | Some l => let! row := rnth hs k in let! h := rnth row l in Ok (w_expand w h) end = Ok t) \/
    match index_of j (w_pm w) with None => Ok dzero | Some l => let! row := rnth hs k in let! h := rnth row l in Ok (w_expand w h) end = Raise IndexError).
  { intros i k Ek j. destruct (index_of j (w_pm w)) as [l|]; [|left; eauto]. apply index_of_lt in Ek as [Ek _].
    destruct (ROW k Ek) as [-> _]. cbn [rbind]. destruct (rnth_or (nth k hs []) l) as [(t & ->)| ->]; cbn; eauto. }
  erewrite rmapM_index; [reflexivity| |].
  - intros i _. unfold wrap_eval_row. destruct (index_of i (w_pm w)) as [k|] eqn:Ek; [|left; eauto].
    pose proof (index_of_lt _ _ _ Ek) as [Kl _]. rewrite (rnth_ok gs k dzero) by lia. cbn [rbind].
    destruct (rmapM_index_or _ (seq 0 i) (fun j _ => LN i k Ek j)) as [(r & ->)| ->]; cbn [rbind]; [|auto].
    destruct (ROW k Kl) as [-> _]. cbn [rbind]. destruct (rnth_or (nth k hs []) k) as [(t & ->)| ->]; cbn; eauto.
  - exists (nth p (w_pm w) 0%nat). split.
    { apply in_seq. rewrite LP. split; [lia|]. rewrite Forall_forall in Hb. cbn. apply Hb, nth_In. lia. }
    unfold wrap_eval_row. rewrite index_of_nth by (auto; lia). rewrite (rnth_ok gs p dzero) by lia. cbn [rbind].
    erewrite rmapM_index; [reflexivity| |].
    + intros j _. apply (LN (nth p (w_pm w) 0%nat) p). apply index_of_nth; auto; lia.
    + exists (nth q (w_pm w) 0%nat). split; [apply in_seq; lia|]. rewrite index_of_nth by (auto; lia).
      destruct (ROW p) as [-> L]; [lia|]. cbn [rbind]. unfold rnth.
      destruct (nth_error (nth p hs []) q) eqn:Q; [|reflexivity]. assert (q < length (nth p hs []))%nat by (apply nth_error_Some; congruence). lia.
Qed.

(** *** eval of a Sum with an offset *)
Theorem sum_offset_lost ss atoms os b : Forall2 (fun p o => wellformed ss o (snd p)) atoms os -> broadcastable os ->
  Forall2 (fun p o => eval_agrees ss o (snd p)) atoms os ->
  forall ps, has_sts ps ss -> exists v gs hs, f_eval (s_sum atoms b) ps = Ok (v, gs, hs) /\
    forall n d, get (val (f_call (s_sum atoms b) ps)) [] [] n d = get v [] [] n d + b.
Proof.
  intros W Bc E ps H. destruct (sum_eval ss atoms os W Bc E ps H) as (v & gs & hs & Ev & _ & Q & _).
  exists v, gs, hs. split; [exact Ev|]. intros n d. rewrite (Q [] [] n d).
  destruct (wf_call _ _ _ (sum_wf ss atoms b os W Bc) ps H) as (v0 & E0 & _). cbn [f_call s_sum] in *.
  destruct (rmapM _ atoms) as [ts|]; cbn [rbind val] in *; [|discriminate].
  unfold dshift. rewrite !get_dmap. ring.
Qed.

(** *** a repeated parameter *)
(** f(a, b) = a + b on two scalar parameters *)
Definition two_scalars : sfun :=
  s_sum [(1, s_wrap (mkW (0%nat :: nil) [] 0 [] 0 []) s_X); (1, s_wrap (mkW (1%nat :: nil) [] 0 [] 0 []) s_X)] 0.
(** FuncWrap(f, [0, 0], []): f(a, a) *)
Definition repeated : wmap := mkW [0%nat; 0%nat] [] 0 [] 0 [].
Notation scalar := (@nil nat, @nil nat) (only parsing).

Lemma wrapX_built i j (ss : list pst) : (i < length ss)%nat -> nth i ss ([], []) = scalar -> j = 0%nat ->
  built ss scalar everywhere (s_wrap (mkW (i :: nil) [] j [] 0 []) s_X).
Proof.
  intros Hi E ->. apply (b_domain _ _ (fun ps => everywhere (map (fun i => nth i ps dzero) (i :: nil)))); [intros; exact I|].
  apply (b_wrap ss scalar (mkW (i :: nil) [] 0 [] 0 []) everywhere s_X).
  - repeat constructor. intros [].
  - repeat constructor. exact Hi.
  - constructor; cbn; auto using NoDup_nil.
  - right; reflexivity.
  - cbn [w_pm map]. rewrite E. apply b_X.
Qed.
Lemma two_scalars_built : built [scalar; scalar] scalar everywhere two_scalars.
Proof.
  apply (b_sum [scalar; scalar] _ [scalar; scalar] everywhere); [reflexivity| |].
  - repeat constructor.
  - intros [|[|k]] Hk; [| |cbn in Hk; lia]; cbn [nth snd]; apply wrapX_built; cbn; auto.
Qed.
Definition scalar_curve (s : R) : list dt := (dconst s :: nil).
Lemma scalar_smooth : smooth_curve (scalar :: nil) scalar_curve (fun _ _ => 1) 0.
Proof.
  split; [intros s; repeat constructor|].
  intros [|i] x Hi Hx; [|cbn in Hi; lia]. cbn. apply D_id.
Qed.
Lemma repeated_wrong : ~ grad_correct (scalar :: nil) scalar everywhere (s_wrap repeated two_scalars).
Proof.
  intros G. pose proof (G scalar_curve (fun _ _ => 1) 0 scalar_smooth I [] [] (or_introl eq_refl) (or_introl eq_refl)) as Q.
  assert (P : is_derive (fun s => get (val (f_call (s_wrap repeated two_scalars) (scalar_curve s))) [] [] [] []) 0 2).
  { eapply is_derive_ext with (f := fun s => 2 * s); [intros s; cbn; ring|].
    eapply is_derive_eq; [apply (D_scal 2 (fun s => s)), D_id|]. ring. }
  pose proof (is_derive_unique _ _ _ P) as E1. pose proof (is_derive_unique _ _ _ Q) as E2. rewrite E1 in E2.
  cbn in E2. unfold Rsum in E2. cbn in E2. lra.
Qed.

(** *** Collapse over a broadcast axis *)
(** g(p)[i, j] = p[i] + q[j] *)
Definition grid : sfun :=
  s_sum [(1, s_wrap (mkW (0%nat :: nil) (0%nat :: nil) 2 [] 0 []) s_X); (1, s_wrap (mkW (1%nat :: nil) (1%nat :: nil) 2 [] 0 []) s_X)] 0.
Notation vec k := ((k :: nil), @nil nat) (only parsing).
Lemma grid_built a b : (1 <= a)%nat -> (1 <= b)%nat -> built [vec a; vec b] ([a; b], []) everywhere grid.
Proof.
  intros Ha Hb. replace ([a; b], @nil nat) with (join [([a; 1%nat], @nil nat); ([1%nat; b], @nil nat)]).
  2:{ unfold join. cbn [fold_left fst snd bmax]. now rewrite !Nat.max_l, !Nat.max_r by lia. }
  apply (b_sum _ _ [([a; 1%nat], []); ([1%nat; b], [])] everywhere); [reflexivity| |].
  - unfold broadcastable. cbn [join fold_left fst snd bmax]. rewrite Nat.max_l, Nat.max_r by lia.
    constructor; [|constructor; [|constructor]]; cbn [fst snd]; split; repeat constructor; lia.
  - intros [|[|k]] Hk; [| |cbn in Hk; lia]; cbn [nth snd].
    + apply (b_domain _ _ (fun ps => everywhere (map (fun i => nth i ps dzero) (0%nat :: nil)))); [intros; exact I|].
      apply (b_wrap [vec a; vec b] (vec a) (mkW (0%nat :: nil) (0%nat :: nil) 2 [] 0 []) everywhere s_X).
      * repeat constructor. intros [].
      * repeat constructor.
      * constructor; cbn; repeat constructor; auto.
      * right; reflexivity.
      * cbn. apply b_X.
    + apply (b_domain _ _ (fun ps => everywhere (map (fun i => nth i ps dzero) (1%nat :: nil)))); [intros; exact I|].
      apply (b_wrap [vec a; vec b] (vec b) (mkW (1%nat :: nil) (1%nat :: nil) 2 [] 0 []) everywhere s_X).
      * repeat constructor. intros [].
      * repeat constructor.
      * constructor; cbn; repeat constructor; auto.
      * right; reflexivity.
      * cbn. apply b_X.
Qed.
Definition grid_curve (s : R) : list dt := [darr (1%nat :: nil) (fun _ => s); darr (2%nat :: nil) (fun _ => 0)].
Lemma grid_smooth : smooth_curve [vec 1%nat; vec 2%nat] grid_curve (fun i _ => if Nat.eqb i 0 then 1 else 0) 0.
Proof.
  split; [intros s; repeat constructor|].
  intros [|[|i]] x Hi Hx; [| |cbn in Hi; lia]; unfold grid_curve; cbn [nth Nat.eqb].
  - apply D_id.
  - apply (D_const 0).
Qed.
Lemma grid_collapse_wrong : ~ grad_correct [vec 1%nat; vec 2%nat] scalar everywhere (s_collapse grid true false).
Proof.
  intros G. pose proof (G grid_curve (fun i _ => if Nat.eqb i 0 then 1 else 0) 0 grid_smooth I [] [] (or_introl eq_refl) (or_introl eq_refl)) as Q.
  assert (P : is_derive (fun s => get (val (f_call (s_collapse grid true false) (grid_curve s))) [] [] [] []) 0 2).
  { eapply is_derive_ext with (f := fun s => 2 * s); [intros s; cbn; ring|].
    eapply is_derive_eq; [apply (D_scal 2 (fun s => s)), D_id|]. ring. }
  pose proof (is_derive_unique _ _ _ P) as E1. pose proof (is_derive_unique _ _ _ Q) as E2. rewrite E1 in E2.
  cbn in E2. unfold Rsum in E2. cbn in E2. lra.
Qed.

(** *** functions that keep all their axes in the derivatives *)
Lemma keeps_entry kd nullh F dF ddF s sv sd : kd_ok kd s ->
  keeps_axes sv sd (s :: nil) s (s_entrywise kd nullh F dF ddF).
Proof.
  intros K ps H. apply sts_1 in H as (p & -> & Hp). destruct (kd_shape kd p s K Hp) as [E1 E2]. split.
  - intros i Hi. right. cbn. rewrite E1, E2. auto.
  - intros i j Hi Hj. cbn. destruct nullh; [left; apply isnil_zero|]. right. cbn. rewrite E1, E2. auto.
Qed.
Lemma keeps_rows size F dF ddF s sv sd : keeps_axes sv sd (s :: nil) (flat s, size :: nil) (s_rows size F dF ddF).
Proof.
  intros ps H. apply sts_1 in H as (p & -> & Hp). pose proof (pshape_st s p Hp) as E. split.
  - intros i Hi. right. cbn. now rewrite E.
  - intros i j Hi Hj. right. cbn. now rewrite E.
Qed.
Lemma keeps_affine ss out f a b sv sd : wellformed ss out f -> hess_both ss out f -> keeps_axes sv sd ss out f ->
  keeps_axes sv sd ss out (s_affine f a b).
Proof.
  intros W B K ps H. destruct (K ps H) as [K1 K2].
  assert (SC : forall t, full sv sd out t -> full sv sd out (dscal a t)).
  { intros t [N|N]; [left|right; exact N]. intros x y n d. rewrite get_dscal, N. ring. }
  split.
  - intros i Hi. cbn [f_grad s_affine]. destruct (f_nullg f); [left; apply isnil_zero|]. rewrite (grad_ok W) by auto. cbn [rbind val]. auto.
  - intros i j Hi Hj. cbn [f_hess s_affine]. destruct (f_nullh f); [left; apply isnil_zero|].
    destruct (le_lt_dec j i) as [L|L].
    + rewrite (hess_ok W) by auto. cbn [rbind val]. auto.
    + destruct (B ps i j H L Hj) as (h & E & _). pose proof (K2 i j Hi Hj) as Q. rewrite E in *. cbn [rbind val] in *. auto.
Qed.
(** a Sum whose terms all have the shape of the Sum *)
Lemma full_dadd sv sd out t u : ax_sub (ns t) (fst out) -> ax_sub (ns u) (fst out) -> ax_sub (ds t) (snd out) -> ax_sub (ds u) (snd out) ->
  full sv sd out t -> full sv sd out u -> full sv sd out (dadd t u).
Proof.
  intros N1 N2 D1 D2 [A|[A1 A2]] [B|[B1 B2]].
  - left. intros x y n d. rewrite get_dadd, A, B. ring.
  - right. cbn [dadd dbin ns ds]. split; intros Q.
    + rewrite (B1 Q), bmax_comm. destruct N1 as [-> | N1]; [apply bmax_nil_r|now apply ax_le_bmax_full].
    + rewrite (B2 Q), bmax_comm. destruct D1 as [-> | D1]; [apply bmax_nil_r|now apply ax_le_bmax_full].
  - right. cbn [dadd dbin ns ds]. split; intros Q.
    + rewrite (A1 Q). destruct N2 as [-> | N2]; [apply bmax_nil_r|now apply ax_le_bmax_full].
    + rewrite (A2 Q). destruct D2 as [-> | D2]; [apply bmax_nil_r|now apply ax_le_bmax_full].
  - right. cbn [dadd dbin ns ds]. split; intros Q; [rewrite A1, B1 by auto|rewrite A2, B2 by auto]; apply bmax_idem.
Qed.

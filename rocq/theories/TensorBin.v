(** Binary operations between two Tensors. *)
From Verif Require Import Prelude DenseModel AnalyticSpec DenseProofs NDArray NDProofs TensorModel TensorSpec TensorSpecOps TensorLemmas TensorBasic TensorSum TensorSumMain.
From Coq Require Import Reals Lra.
Import List ListNotations.
Open Scope R_scope.

Lemma bok_sym a b : bok a b -> bok b a.
Proof. intros [H|[H|H]]; [right; left|left|right; right]; auto. now apply bcompat_sym. Qed.
Lemma bok_nil_l b : bok [] b. Proof. now left. Qed.

(** *** reshape_idx, group by group *)
Definition grp (G : list nat) (r : nat) : list nat := match G with [] => repeat 1%nat r | _ => G end.
Definition ung (G : list nat) (a : idx) : idx := match G with [] => [] | _ => a end.
Definition gsel (g r : nat) : list sel := repeat (if Nat.ltb 0 g then Sl else Nw) r.
Definition glen (G : list nat) (r : nat) : Prop := G = [] \/ length G = r.
Lemma gsel_shape G r rest sh : glen G r -> ishape (gsel (length G) r ++ rest) (G ++ sh) = grp G r ++ ishape rest sh.
Proof.
  intros [->|H]; unfold gsel.
  - cbn [length Nat.ltb Nat.leb app grp]. apply ishape_nw.
  - destruct G as [|g G]; cbn [length Nat.ltb Nat.leb grp]; [cbn in H; subst; reflexivity|]. apply (ishape_sl' r (g :: G)). auto.
Qed.
Lemma gsel_idx G r rest a i : glen G r -> length a = r -> iidx (gsel (length G) r ++ rest) (a ++ i) = ung G a ++ iidx rest i.
Proof.
  intros [->|H] L; unfold gsel.
  - cbn [length Nat.ltb Nat.leb app ung]. apply iidx_nw. auto.
  - destruct G as [|g G]; cbn [length Nat.ltb Nat.leb ung].
    + cbn in H; subst. destruct a; [reflexivity|discriminate].
    + apply iidx_sl. auto.
Qed.
Lemma gsel_count G r : glen G r -> count_sl (gsel (length G) r) = length G.
Proof.
  intros [->|H]; unfold gsel.
  - cbn [length Nat.ltb Nat.leb]. apply count_sl_nw.
  - destruct G as [|g G]; cbn [length Nat.ltb Nat.leb]; [apply count_sl_nw|]. rewrite count_sl_sl. auto.
Qed.
Lemma gsel_nodots g r : nodots (gsel g r).
Proof. unfold gsel. destruct (Nat.ltb 0 g); [apply nodots_sl|apply nodots_nw]. Qed.
Lemma reshape_idx_eq t x y n d : reshape_idx t x y n d = gsel (xd t) x ++ gsel (yd t) y ++ gsel (nn t) n ++ gsel (dm t) d.
Proof. reflexivity. Qed.
Lemma reshape_ok t v X Y N D x y n d : xd t = length X -> yd t = length Y -> nn t = length N -> dm t = length D ->
  shp v = X ++ Y ++ N ++ D -> glen X x -> glen Y y -> glen N n -> glen D d ->
  exists r, np_index (reshape_idx t x y n d) v = Ok r /\ shp r = grp X x ++ grp Y y ++ grp N n ++ grp D d /\
    forall a b c e, length a = x -> length b = y -> length c = n -> length e = d ->
      el r (a ++ b ++ c ++ e) = el v (ung X a ++ ung Y b ++ ung N c ++ ung D e).
Proof.
  intros E1 E2 E3 E4 S H1 H2 H3 H4. rewrite reshape_idx_eq, E1, E2, E3, E4. rewrite np_index_ok.
  2:{ repeat apply nodots_app; apply gsel_nodots. }
  2:{ rewrite !count_sl_app, !gsel_count by auto. unfold ndim. rewrite S, !app_length. lia. }
  eexists; split; [reflexivity|]. cbn [shp el]. split.
  - rewrite S, !gsel_shape by auto. f_equal. f_equal. f_equal.
    pose proof (gsel_shape D d [] [] H4) as Q. rewrite !app_nil_r in Q. rewrite Q. cbn. now rewrite ?app_nil_r.
  - intros a b c e La Lb Lc Le. rewrite !gsel_idx by auto. do 3 f_equal. f_equal.
    pose proof (gsel_idx D d [] e [] H4 Le) as Q. rewrite !app_nil_r in Q. rewrite Q. cbn. now rewrite ?app_nil_r.
Qed.
Lemma bok_glen A B : bok A B -> glen A (Nat.max (length A) (length B)) /\ glen B (Nat.max (length A) (length B)).
Proof.
  intros [->|[->|H]]; unfold glen; cbn [length]; rewrite ?Nat.max_0_r; auto.
  apply Forall2_length' in H. rewrite H, Nat.max_id. auto.
Qed.
Lemma bok_grp A B r : bok A B -> r = Nat.max (length A) (length B) -> Forall2 bcompat (grp A r) (grp B r).
Proof.
  intros H ->. destruct A as [|a A]; [cbn [grp length Nat.max]|].
  - destruct B as [|b B]; [constructor|]. apply bcompat_ones.
  - destruct B as [|b B]; [cbn [grp]; rewrite Nat.max_0_r; apply bcompat_sym, bcompat_ones|].
    destruct H as [H|[H|H]]; try discriminate. exact H.
Qed.
Lemma bmax_nil_r a : bmax a [] = a. Proof. destruct a; auto. Qed.
Lemma bmax_sym a b : bmax a b = bmax b a.
Proof. revert b; induction a as [|s a IH]; intros [|s' b]; cbn [bmax]; auto. rewrite IH, Nat.max_comm. reflexivity. Qed.
Lemma bmax_grp A B r : posl A -> posl B -> r = Nat.max (length A) (length B) -> bok A B -> bmax (grp A r) (grp B r) = bmax A B.
Proof.
  intros PA PB -> H. destruct A as [|a A].
  - cbn [grp length Nat.max]. destruct B as [|b B]; [reflexivity|]. now apply bmax_ones.
  - destruct B as [|b B]; [|reflexivity]. rewrite bmax_nil_r. cbn [grp]. rewrite Nat.max_0_r. rewrite bmax_sym. now apply bmax_ones.
Qed.
Lemma grp_pos A r : posl A -> posl (grp A r).
Proof. intros H. destruct A; [apply pos_ones|auto]. Qed.
Lemma grp_length A r : glen A r -> length (grp A r) = r.
Proof. intros [->|H]; [apply repeat_length|]. destruct A; [apply repeat_length|auto]. Qed.
Lemma ung_clamp A r a : ung A (clamp (grp A r) a) = clamp A a.
Proof. destruct A; [reflexivity|reflexivity]. Qed.
Lemma clamp_app a b i j : length i = length a -> clamp (a ++ b) (i ++ j) = clamp a i ++ clamp b j.
Proof. revert i; induction a as [|s a IH]; intros [|k i] L; try discriminate; cbn [app clamp]; auto. rewrite IH by (cbn in L; lia). reflexivity. Qed.
Lemma bmax_len a b : length (bmax a b) = Nat.max (length a) (length b).
Proof. revert b; induction a as [|s a IH]; intros [|s' b]; cbn [bmax length]; auto. rewrite IH. reflexivity. Qed.

(** two reshaped arrays combined *)
Lemma reshape_bin op s o v w X Y N D X' Y' N' D' :
  xd s = length X -> yd s = length Y -> nn s = length N -> dm s = length D -> shp v = X ++ Y ++ N ++ D ->
  xd o = length X' -> yd o = length Y' -> nn o = length N' -> dm o = length D' -> shp w = X' ++ Y' ++ N' ++ D' ->
  posl (shp v) -> posl (shp w) -> bok X X' -> bok Y Y' -> bok N N' -> bok D D' ->
  exists l r z,
    np_index (reshape_idx s (Nat.max (xd s) (xd o)) (Nat.max (yd s) (yd o)) (Nat.max (nn s) (nn o)) (Nat.max (dm s) (dm o))) v = Ok l /\
    np_index (reshape_idx o (Nat.max (xd s) (xd o)) (Nat.max (yd s) (yd o)) (Nat.max (nn s) (nn o)) (Nat.max (dm s) (dm o))) w = Ok r /\
    np_bin op l r = Ok z /\ shp z = bmax X X' ++ bmax Y Y' ++ bmax N N' ++ bmax D D' /\
    forall a b c e, length a = length (bmax X X') -> length b = length (bmax Y Y') -> length c = length (bmax N N') -> length e = length (bmax D D') ->
      el z (a ++ b ++ c ++ e) = op (el v (clamp X a ++ clamp Y b ++ clamp N c ++ clamp D e)) (el w (clamp X' a ++ clamp Y' b ++ clamp N' c ++ clamp D' e)).
Proof.
  intros E1 E2 E3 E4 S F1 F2 F3 F4 S' P P' HX HY HN HD.
  destruct (bok_glen _ _ HX), (bok_glen _ _ HY), (bok_glen _ _ HN), (bok_glen _ _ HD).
  rewrite E1, E2, E3, E4, F1, F2, F3, F4.
  destruct (reshape_ok s v X Y N D _ _ _ _ E1 E2 E3 E4 S H H1 H3 H5) as (l & El & Sl & Vl).
  destruct (reshape_ok o w X' Y' N' D' _ _ _ _ F1 F2 F3 F4 S' H0 H2 H4 H6) as (r & Er & Sr & Vr).
  rewrite S in P. rewrite S' in P'. apply pos_app in P as [PX P]. apply pos_app in P as [PY P]. apply pos_app in P as [PN PD].
  apply pos_app in P' as [PX' P']. apply pos_app in P' as [PY' P']. apply pos_app in P' as [PN' PD'].
  destruct (np_bin_ok op l r) as (z & Ez & Sz & Vz).
  { rewrite Sl, Sr. repeat apply Forall2_app; apply bok_grp; auto. }
  { rewrite Sl. apply pos_app; split; [|apply pos_app; split; [|apply pos_app; split]]; apply grp_pos; auto. }
  { rewrite Sr. apply pos_app; split; [|apply pos_app; split; [|apply pos_app; split]]; apply grp_pos; auto. }
  exists l, r, z. split; [exact El|]. split; [exact Er|]. split; [exact Ez|]. split.
  - rewrite Sz, Sl, Sr. rewrite !bmax_app by (rewrite !grp_length; auto). rewrite !bmax_grp; auto.
  - intros a b c e La Lb Lc Le. rewrite bmax_len in La, Lb, Lc, Le. rewrite Vz.
    2:{ unfold ndim. rewrite Sl, !app_length, !grp_length by auto. lia. }
    rewrite Sl, Sr. rewrite !clamp_app by (rewrite grp_length; auto).
    assert (K : forall G q i, length i = q -> glen G q -> length (clamp (grp G q) i) = q).
    { intros G q i Hi HG. rewrite clamp_length, grp_length by auto. lia. }
    rewrite Vl, Vr by (apply K; auto). now rewrite !ung_clamp.
Qed.

(** *** clamped reads of a mapped tensor *)
Lemma stored_clamp m : forall sx sn x, single_at m sx -> stored m (clamp (msizes m sx sn) x) = clamp sx (stored m x).
Proof.
  induction m as [|[f|] m IH]; intros [|s sx] sn [|k x] S; cbn [single_at msizes clamp stored] in *; auto; try tauto.
  - destruct S as [-> S]. rewrite IH by auto. reflexivity.
  - now rewrite IH.
Qed.
Lemma nth_bmax_full a b f : (f < length a)%nat -> (nth f b 1 <= nth f a 1)%nat -> nth f (bmax a b) 1%nat = nth f a 1%nat.
Proof.
  revert b f; induction a as [|s a IH]; intros [|s' b] f L H; cbn [length] in L; try lia; cbn [bmax]; auto.
  destruct f as [|f]; cbn [nth] in *; [lia|]. apply IH; auto. lia.
Qed.
Lemma clampi_in s k : (k < s)%nat -> clampi s k = k. Proof. apply clampi_lt. Qed.
Lemma deltas_clamp m : forall sx sx' sn sb x n, length sx = length sx' -> Forall (fun f => f < length sn)%nat (targets m) ->
  (forall f, In f (targets m) -> length sn = length sb /\ nth f sb 1%nat = nth f sn 1%nat) ->
  In x (indices (msizes m sx' sb)) -> In n (indices sb) ->
  deltas m (clamp (msizes m sx sn) x) (clamp sn n) = deltas m x n.
Proof.
  induction m as [|[f|] m IH]; intros [|s sx] [|s' sx'] sn sb x n LL T F Hx Hn; try discriminate; cbn [msizes deltas targets] in *; auto.
  - destruct Hx as [<-|[]]. reflexivity.
  - destruct x as [|k x]; [now apply indices_length in Hx|]. apply TensorLemmas.in_cons in Hx as [Hk Hx]. inversion T; subst. cbn [clamp deltas].
    rewrite IH with (sx' := sx') (sb := sb); auto. 2:{ intros g Hg. apply F. now right. } f_equal.
    destruct (F f) as [FL FE]; [now left|].
    rewrite FE in Hk. rewrite clampi_lt by auto. f_equal.
    rewrite nth_clamp by (auto; apply indices_length in Hn; congruence).
    apply clampi_lt. pose proof (in_nth sb n f Hn) as Q. rewrite <- FL in Q. specialize (Q H1).
    rewrite (nth_indep sn O 1%nat), <- FE by auto. rewrite (nth_indep sb 1%nat O) by (rewrite <- FL; auto). exact Q.
  - destruct Hx as [<-|[]]. reflexivity.
  - destruct x as [|k x]; [now apply indices_length in Hx|]. apply TensorLemmas.in_cons in Hx as [Hk Hx]. cbn [clamp deltas]. apply (IH sx sx' sn sb); auto.
Qed.
Lemma msizes_app m sx sn sd : Forall (fun f => f < length sn)%nat (targets m) -> msizes m sx (sn ++ sd) = msizes m sx sn.
Proof. intros T. rewrite gx_msizes by auto. rewrite <- (gx_msizes m sx sn []), app_nil_r by auto. reflexivity. Qed.
(** den without the dim axes in the maps *)
Lemma get_den t X Y N D x y n d : groups t X Y N D -> single_at (xm t) X -> single_at (ym t) Y ->
  Forall (fun f => f < length N)%nat (targets (xm t)) -> Forall (fun f => f < length N)%nat (targets (ym t)) -> length n = length N \/ N = [] ->
  get (den t) x y n d = el (tv t) (clamp X (stored (xm t) x) ++ clamp Y (stored (ym t) y) ++ clamp N n ++ clamp D d)
    * deltas (xm t) (clamp (msizes (xm t) X N) x) (clamp N n) * deltas (ym t) (clamp (msizes (ym t) Y N) y) (clamp N n).
Proof.
  intros G Sx Sy Tx Ty Ln. destruct (den_groups _ _ _ _ _ G) as (Dx & Dy & Dn & Dd). unfold get. rewrite Dx, Dy, Dn, Dd, !msizes_app by auto.
  unfold den; cbn [at_]. rewrite !stored_clamp by auto.
  assert (LC : length (clamp N n) = length N) by (rewrite clamp_length; destruct Ln as [->| ->]; cbn; lia).
  rewrite !deltas_app by (rewrite LC; auto). reflexivity.
Qed.

(** *** which map the result of an operation gets *)
Inductive mapsel (ms mo : amap) (G G' : list nat) : amap -> bool -> bool -> Prop :=
| MBoth : ms = mo -> mapsel ms mo G G' ms true true
| MLeft : mo = [] -> G' = [] -> mapsel ms mo G G' ms true false
| MRight : ms = [] -> G = [] -> mapsel ms mo G G' mo false true.
Lemma nth_bmax1 a b f : posl a -> posl b -> nth f (bmax a b) 1%nat = Nat.max (nth f a 1%nat) (nth f b 1%nat).
Proof.
  assert (P1 : forall l g, posl l -> (1 <= nth g l 1)%nat).
  { intros l g P. destruct (Nat.lt_ge_cases g (length l)) as [H|H]; [|rewrite nth_overflow; auto].
    exact (proj1 (Forall_forall _ _) P _ (nth_In _ _ H)). }
  revert b f; induction a as [|s a IH]; intros b f Pa Pb.
  - cbn [bmax]. specialize (P1 b f Pb). destruct f; cbn [nth]; lia.
  - destruct b as [|s' b]; [specialize (P1 (s :: a) f Pa); cbn [bmax]; replace (nth f [] 1%nat) with 1%nat by (now destruct f); lia|].
    inversion Pa; inversion Pb; subst. destruct f as [|f]; cbn [bmax nth]; auto.
Qed.
Lemma single_bmax m : forall a b, single_at m a -> single_at m b -> single_at m (bmax a b).
Proof.
  induction m as [|[f|] m IH]; intros [|s a] [|s' b] Ha Hb; cbn [single_at bmax] in *; auto; try tauto.
  - destruct Ha as [-> Ha], Hb as [-> Hb]. auto.
Qed.
Lemma single_len m a b : single_at m a -> single_at m b -> bok a b -> m <> [] -> length a = length b.
Proof.
  intros Ha Hb H N. destruct H as [->|[->|H]].
  - destruct m as [|[f|] m]; [congruence|destruct Ha|destruct Ha].
  - destruct m as [|[f|] m]; [congruence|destruct Hb|destruct Hb].
  - eapply Forall2_length'; eauto.
Qed.
Lemma msizes_bmax m : forall X X' N N', length X = length X' \/ m = [] -> posl N -> posl N' ->
  bmax (msizes m X N) (msizes m X' N') = msizes m (bmax X X') (bmax N N').
Proof.
  induction m as [|o m IH]; intros X X' N N' L P P'; [reflexivity|].
  destruct L as [L|]; [|discriminate]. destruct o as [f|]; destruct X as [|s X], X' as [|s' X']; try discriminate; cbn [msizes bmax]; auto.
  - rewrite nth_bmax1, IH; auto.
  - rewrite IH; auto.
Qed.
Lemma msizes_ext m : forall X N B, (forall f, In f (targets m) -> nth f B 1%nat = nth f N 1%nat) -> msizes m X B = msizes m X N.
Proof.
  induction m as [|[f|] m IH]; intros [|s X] N B H; cbn [msizes targets In] in *; auto.
  - rewrite H by auto. rewrite (IH X N B); auto.
  - rewrite (IH X N B); auto.
Qed.
Lemma full_bmax m N N' f : Forall (fun f => f < length N)%nat (targets m) -> bok N N' -> posl N -> posl N' -> full m N N' -> In f (targets m) ->
  length N = length (bmax N N') /\ nth f (bmax N N') 1%nat = nth f N 1%nat.
Proof.
  intros T HB P P' F Hf. specialize (F f Hf). split; [|rewrite nth_bmax1 by auto; lia].
  rewrite bmax_len. destruct HB as [->|[->|H]]; [|cbn; lia|apply Forall2_length' in H; lia].
  eapply Forall_forall in T; [|exact Hf]. cbn in T. lia.
Qed.
Section Group.
Context (ms mo mx : amap) (X X' N N' : list nat) (hs ho : bool).
Context (M : mapsel ms mo X X' mx hs ho) (HX : bok X X') (HN : bok N N')
        (S : single_at ms X) (S' : single_at mo X') (PN : posl N) (PN' : posl N')
        (T : Forall (fun f => f < length N)%nat (targets ms)) (T' : Forall (fun f => f < length N')%nat (targets mo))
        (F : full ms N N') (F' : full mo N' N).
Lemma group_single : single_at mx (bmax X X').
Proof.
  destruct M as [E|E E'|E E'].
  - subst mo. now apply single_bmax.
  - subst. now rewrite bmax_nil_r.
  - subst. auto.
Qed.
Lemma full_bmax' f : In f (targets mo) -> length N' = length (bmax N N') /\ nth f (bmax N N') 1%nat = nth f N' 1%nat.
Proof. intros Hf. rewrite (bmax_sym N N'). apply (full_bmax mo); auto. now apply bok_sym. Qed.
Lemma group_sizes : bmax (msizes ms X N) (msizes mo X' N') = msizes mx (bmax X X') (bmax N N').
Proof.
  destruct M as [E|E E'|E E'].
  - subst mo. apply msizes_bmax; auto. destruct ms as [|o m'] eqn:Em; [now right|]. left. eapply single_len; eauto. discriminate.
  - subst mo X'. cbn [msizes]. rewrite !bmax_nil_r. symmetry. apply msizes_ext. intros f Hf. apply (full_bmax ms); auto.
  - subst ms X. cbn [msizes bmax]. symmetry. apply msizes_ext. intros f Hf. now apply full_bmax'.
Qed.
Lemma group_stored_l x : clamp X (stored ms x) = clamp X (stored mx x).
Proof. destruct M as [E|E E'|E E']; subst; auto. Qed.
Lemma group_stored_r x : clamp X' (stored mo x) = clamp X' (stored mx x).
Proof. destruct M as [E|E E'|E E']; subst; auto. Qed.
Lemma group_len_l : ms <> [] -> length X = length (bmax X X').
Proof.
  intros Nz. rewrite bmax_len. destruct M as [E|E E'|E E'].
  - subst mo. rewrite (single_len ms X X') by auto. lia.
  - subst. cbn. lia.
  - congruence.
Qed.
Lemma group_len_r : mo <> [] -> length X' = length (bmax X X').
Proof.
  intros Nz. rewrite bmax_len. destruct M as [E|E E'|E E'].
  - subst mo. rewrite (single_len ms X X') by auto. lia.
  - congruence.
  - subst. cbn. lia.
Qed.
Lemma group_deltas_l x n : In x (indices (msizes mx (bmax X X') (bmax N N'))) -> In n (indices (bmax N N')) ->
  deltas ms (clamp (msizes ms X N) x) (clamp N n) = if hs then deltas mx x n else 1.
Proof.
  intros Hx Hn. destruct ms as [|o m'] eqn:Em.
  - cbn [deltas]. destruct M as [E|E E'|E E']; reflexivity.
  - rewrite <- Em in *. assert (Nz : ms <> []) by (rewrite Em; discriminate). pose proof (group_len_l Nz) as L.
    assert (Hs : mx = ms /\ hs = true) by (destruct M; auto; congruence). destruct Hs as [Hm ->]. rewrite Hm in *.
    apply (deltas_clamp ms X (bmax X X') N (bmax N N')); auto. intros f Hf. apply (full_bmax ms); auto.
Qed.
Lemma group_deltas_r x n : In x (indices (msizes mx (bmax X X') (bmax N N'))) -> In n (indices (bmax N N')) ->
  deltas mo (clamp (msizes mo X' N') x) (clamp N' n) = if ho then deltas mx x n else 1.
Proof.
  intros Hx Hn. destruct mo as [|o m'] eqn:Em.
  - cbn [deltas]. destruct M as [E|E E'|E E']; try reflexivity. now rewrite E.
  - rewrite <- Em in *. assert (Nz : mo <> []) by (rewrite Em; discriminate). pose proof (group_len_r Nz) as L.
    assert (Hs : mx = mo /\ ho = true) by (destruct M; auto; congruence). destruct Hs as [Hm ->]. rewrite Hm in *.
    apply (deltas_clamp mo X' (bmax X X') N' (bmax N N')); auto. exact full_bmax'.
Qed.
End Group.

Lemma deltas_01 m x n : deltas m x n = 0 \/ deltas m x n = 1.
Proof.
  revert x; induction m as [|[f|] m IH]; intros [|k x]; cbn [deltas]; auto.
  unfold delta. destruct (Nat.eqb _ _), (IH x) as [->| ->]; [left|right|left|left]; ring.
Qed.

Record opdata (s o : tensor) (mx my : amap) (hxs hxo hys hyo : bool) : Prop := mkOD {
  od_ws : wf s; od_wo : wf o; od_fs : to_features s; od_fo : to_features o; od_c : compat s o;
  od_x : mapsel (xm s) (xm o) (sX s) (sX o) mx hxs hxo;
  od_y : mapsel (ym s) (ym o) (sY s) (sY o) my hys hyo }.
Definition dis (h : bool) (d : R) : R := if h then d else 1.
Lemma bin_den op s o mx my hxs hxo hys hyo :
  opdata s o mx my hxs hxo hys hyo ->
  (forall a b dx dy, (dx = 0 \/ dx = 1) -> (dy = 0 \/ dy = 1) ->
     op (a * dis hxs dx * dis hys dy) (b * dis hxo dx * dis hyo dy) = op a b * dx * dy) ->
  exists l r v t,
    np_index (reshape_idx s (Nat.max (xd s) (xd o)) (Nat.max (yd s) (yd o)) (Nat.max (nn s) (nn o)) (Nat.max (dm s) (dm o))) (tv s) = Ok l /\
    np_index (reshape_idx o (Nat.max (xd s) (xd o)) (Nat.max (yd s) (yd o)) (Nat.max (nn s) (nn o)) (Nat.max (dm s) (dm o))) (tv o) = Ok r /\
    np_bin op l r = Ok v /\
    Tensor v (Nat.max (xd s) (xd o)) (Nat.max (yd s) (yd o)) (Nat.max (dm s) (dm o)) mx my = Ok t /\
    wf t /\ to_features t /\ xm t = mx /\ ym t = my /\ dsame (den t) (dbin op (den s) (den o)).
Proof.
  intros [Ws Wo [Fsx Fsy] [Fox Foy] C Mx My] Hop.
  pose proof (wf_groups s Ws) as G. pose proof (wf_groups o Wo) as G'.
  destruct (wf_pos4 s Ws) as (PX & PY & PN & PD). destruct (wf_pos4 o Wo) as (PX' & PY' & PN' & PD').
  destruct (wf_x s Ws) as (Sx & NDx & _). destruct (wf_y s Ws) as (Sy & NDy & _).
  destruct (wf_x o Wo) as (Sx' & NDx' & _). destruct (wf_y o Wo) as (Sy' & NDy' & _).
  pose proof (wf_pos s Ws) as P. pose proof (wf_pos o Wo) as P'.
  destruct C as [CX CY CN CD C1 C2 C3 C4].
  pose proof (den_groups _ _ _ _ _ G) as (Dx & Dy & Dn & Dd). pose proof (den_groups _ _ _ _ _ G') as (Dx' & Dy' & Dn' & Dd').
  set (X := sX s) in *. set (Y := sY s) in *. set (N := sN s) in *. set (D := sD s) in *.
  set (X' := sX o) in *. set (Y' := sY o) in *. set (N' := sN o) in *. set (D' := sD o) in *.
  pose proof G as [GS Lx Ly Ln Ld]. pose proof G' as [GS' Lx' Ly' Ln' Ld'].
  rewrite <- Ln in Fsx, Fsy. rewrite <- Ln' in Fox, Foy.
  destruct (reshape_bin op s o (tv s) (tv o) X Y N D X' Y' N' D') as (l & r & v & El & Er & Ev & Sv & Vv); auto.
  destruct (Tensor_ok v (bmax X X') (bmax Y Y') (bmax N N') (bmax D D') mx my (Nat.max (xd s) (xd o)) (Nat.max (yd s) (yd o)) (Nat.max (dm s) (dm o)))
    as (t & Et & Gt & Tt & Mxt & Myt); auto; try (rewrite bmax_len; lia).
  exists l, r, v, t. split; [exact El|]. split; [exact Er|]. split; [exact Ev|]. split; [exact Et|].
  assert (LN : nn t = Nat.max (length N) (length N')) by (rewrite <- (g_n _ _ _ _ _ Gt); apply bmax_len).
  assert (Tx : Forall (fun f => f < nn t)%nat (targets mx)).
  { destruct Mx as [E|E E'|E E']; [| |]; (eapply Forall_impl; [|first [exact Fsx|exact Fox]]); intros; cbn beta in *; lia. }
  assert (Ty : Forall (fun f => f < nn t)%nat (targets my)).
  { destruct My as [E|E E'|E E']; [| |]; (eapply Forall_impl; [|first [exact Fsy|exact Foy]]); intros; cbn beta in *; lia. }
  assert (NDmx : NoDup (targets mx)) by (destruct Mx; auto). assert (NDmy : NoDup (targets my)) by (destruct My; auto).
  split. { apply (wf_of t _ _ _ _ Gt).
    1-4: (apply bmax_pos; auto).
    - rewrite Mxt. split; [now apply (group_single (xm s) (xm o) mx X X' N N' hxs hxo)|]. split; [auto|].
      eapply Forall_impl; [|exact Tx]. intros; cbn beta in *. rewrite !bmax_len. lia.
    - rewrite Myt. split; [now apply (group_single (ym s) (ym o) my Y Y' N N' hys hyo)|]. split; [auto|].
      eapply Forall_impl; [|exact Ty]. intros; cbn beta in *. rewrite !bmax_len. lia. }
  split. { split; rewrite ?Mxt, ?Myt; auto. }
  split; [auto|]. split; [auto|].
  rewrite LN in Tx, Ty. rewrite <- bmax_len in Tx, Ty.
  destruct (den_groups _ _ _ _ _ Gt) as (Rx & Ry & Rn & Rd). rewrite Mxt in Rx; rewrite Myt in Ry. rewrite msizes_app in Rx, Ry by auto.
  rewrite msizes_app in Dx, Dy, Dx', Dy' by auto.
  unfold dsame. rewrite Rx, Ry, Rn, Rd. cbn [dbin xs ys ns ds at_]. rewrite Dx, Dy, Dd, Dn, Dx', Dy', Dd', Dn'.
  rewrite (group_sizes (xm s) (xm o) mx X X' N N' hxs hxo), (group_sizes (ym s) (ym o) my Y Y' N N' hys hyo) by auto.
  split; [auto|]. split; [auto|]. split; [auto|]. split; [reflexivity|].
  intros x y n d Hx Hy Hn Hd.
  assert (Lnn : length n = Nat.max (length N) (length N')) by (apply indices_length in Hn; now rewrite bmax_len in Hn).
  assert (A1 : length n = length N \/ N = []).
  { destruct CN as [->|[->|H]]; [now right|left; rewrite Lnn; cbn; lia|left; apply Forall2_length' in H; lia]. }
  assert (A2 : length n = length N' \/ N' = []).
  { destruct CN as [->|[->|H]]; [left; rewrite Lnn; cbn; lia|now right|left; apply Forall2_length' in H; lia]. }
  rewrite (get_den s X Y N D) by auto. rewrite (get_den o X' Y' N' D') by auto.
  rewrite (group_stored_l (xm s) (xm o) mx X X' N N' hxs hxo), (group_stored_l (ym s) (ym o) my Y Y' N N' hys hyo) by auto.
  rewrite (group_stored_r (xm s) (xm o) mx X X' N N' hxs hxo), (group_stored_r (ym s) (ym o) my Y Y' N N' hys hyo) by auto.
  rewrite (group_deltas_l (xm s) (xm o) mx X X' N N' hxs hxo) by auto.
  rewrite (group_deltas_r (xm s) (xm o) mx X X' N N' hxs hxo) by auto.
  rewrite (group_deltas_l (ym s) (ym o) my Y Y' N N' hys hyo) by auto.
  rewrite (group_deltas_r (ym s) (ym o) my Y Y' N N' hys hyo) by auto.
  fold (dis hxs (deltas mx x n)) (dis hxo (deltas mx x n)) (dis hys (deltas my y n)) (dis hyo (deltas my y n)).
  rewrite Hop by apply deltas_01.
  apply indices_length in Hx, Hy, Hn, Hd. rewrite msizes_length in Hx, Hy.
  unfold den. cbn [at_]. rewrite Mxt, Myt, Tt. rewrite Vv by (rewrite ?stored_length; auto).
  rewrite !deltas_app by (rewrite Hn; auto). reflexivity.
Qed.

(** GenericTensor.sum: the elements may be broadcast against each other, so each
    sum is multiplied by the number of times it is repeated. *)
From Verif Require Import Prelude DenseModel AnalyticSpec DenseProofs NDArray NDProofs TensorModel TensorSpec TensorSpecOps TensorLemmas TensorBasic TensorSum TensorSumMain TensorBin TensorArith TensorShape TensorGeneric.
From Verif Require FuncCollapse.
From Coq Require Import Reals Lra.
Import List ListNotations.
Open Scope R_scope.

(** *** Repetition *)
Definition le1 (g G : list nat) : Prop := Forall2 (fun s s' => s = 1%nat \/ s = s') g G.
Lemma below_len g G : below g G -> length g = length G -> le1 g G.
Proof. intros [->|H] L; auto. destruct G; [constructor|discriminate]. Qed.
Lemma prodn_cons s l : prodn (s :: l) = (s * prodn l)%nat. Proof. reflexivity. Qed.
Lemma prodn_pos l : posl l -> (0 < prodn l)%nat.
Proof. induction 1; [cbn; lia|]. rewrite prodn_cons. nia. Qed.
Lemma prodn_app' a b : prodn (a ++ b) = (prodn a * prodn b)%nat.
Proof. induction a as [|x a IH]; [cbn [app]; change (prodn []) with 1%nat; lia|]. cbn [app]. rewrite !prodn_cons, IH. lia. Qed.
Lemma Rsum_const {X} c (l : list X) : Rsum (fun _ => c) l = INR (length l) * c.
Proof. induction l as [|x l IH]; [rewrite Rsum_nil; cbn; ring|]. rewrite Rsum_cons, IH. cbn [length]. rewrite S_INR. ring. Qed.
Lemma Rsum_bcast g G : le1 g G -> posl g -> posl G -> forall f : idx -> R,
  Rsum (fun n => f (clamp g n)) (indices G) = INR (prodn G) / INR (prodn g) * Rsum f (indices g).
Proof.
  induction 1 as [|s s' g G Hs H IH]; intros Pg PG f.
  - cbn [indices prodn fold_right clamp]. rewrite !Rsum_cons, !Rsum_nil. cbn [clamp INR]. field.
  - inversion Pg; inversion PG; subst. rewrite !Rsum_indices_cons, !prodn_cons, !mult_INR. cbn [clamp].
    assert (N1 : INR (prodn g) <> 0) by (apply not_0_INR; pose proof (prodn_pos g ltac:(auto)); lia).
    assert (N2 : INR s <> 0) by (apply not_0_INR; lia).
    destruct Hs as [-> | ->].
    + rewrite (Rsum_ext _ (fun _ => INR (prodn G) / INR (prodn g) * Rsum (fun i => f (0%nat :: i)) (indices g))).
      2:{ intros k _. change (clampi 1 k) with 0%nat. rewrite <- (IH ltac:(auto) ltac:(auto) (fun i => f (0%nat :: i))). reflexivity. }
      rewrite Rsum_const, seq_length. cbn [seq]. rewrite Rsum_cons, Rsum_nil. cbn [INR]. field. auto.
    + rewrite (Rsum_ext _ (fun k => INR (prodn G) / INR (prodn g) * Rsum (fun i => f (k :: i)) (indices g))).
      2:{ intros k Hk. apply in_seq in Hk. rewrite clampi_in by lia. rewrite <- (IH ltac:(auto) ltac:(auto) (fun i => f (k :: i))). reflexivity. }
      rewrite Rsum_scal. field. auto.
Qed.

(** *** Adding up arrays of the same rank *)
Lemma le1_in g G i : le1 g G -> posl g -> In i (indices G) -> In (clamp g i) (indices g).
Proof. intros H P Hi. apply (below_in g G); auto. now right. Qed.
Lemma le1_bcompat a b G : le1 a G -> le1 b G -> Forall2 bcompat a b.
Proof. intros Ha Hb. revert b Hb; induction Ha; intros b' Hb; inversion Hb; subst; constructor; auto. unfold bcompat. lia. Qed.
Lemma le1_bmax a b G : posl G -> le1 a G -> le1 b G -> le1 (bmax a b) G.
Proof. intros P Ha. revert b; induction Ha; intros b' Hb; inversion Hb; subst; inversion P; subst; cbn [bmax]; constructor; [lia|]. apply IHHa; auto. Qed.
Lemma clamp_bmax_l a b G i : posl a -> posl b -> le1 a G -> le1 b G -> In i (indices G) -> clamp a (clamp (bmax a b) i) = clamp a i.
Proof.
  intros Pa Pb Ha. rewrite In_indices. revert b i Pa Pb; induction Ha as [|s s' a G Hs Ha IH]; intros b' i Pa Pb Hb Hi; inversion Hb; subst; inversion Hi; subst; cbn [bmax clamp]; auto.
  inversion Pa; inversion Pb; subst. f_equal; [|apply IH; auto].
  unfold clampi. destruct (Nat.leb_spec s 1); auto. destruct (Nat.leb_spec (Nat.max s x) 1); lia.
Qed.
Lemma clamp_idem a i : clamp a (clamp a i) = clamp a i.
Proof. revert i; induction a as [|s a IH]; intros [|k i]; cbn [clamp]; auto. rewrite IH. f_equal. unfold clampi. destruct (Nat.leb_spec s 1); auto. Qed.
Definition vsum (l : list nda) (i : idx) : R := Rsum (fun a => el a (clamp (shp a) i)) l.
Lemma fold_add G : posl G -> forall l acc, le1 (shp acc) G -> posl (shp acc) -> Forall (fun a => le1 (shp a) G /\ posl (shp a)) l ->
  exists r, ofold (fun acc a => np_bin Rplus acc a) l acc = Ok r /\ shp r = bmaxs (shp acc :: map shp l) /\
    forall i, In i (indices G) -> el r (clamp (shp r) i) = el acc (clamp (shp acc) i) + vsum l i.
Proof.
  intros PG. induction l as [|a l IH]; intros acc La Pa F; cbn [ofold].
  - exists acc. split; [reflexivity|]. split; [cbn [map bmaxs fold_right]; now rewrite bmax_nil_r|]. intros. unfold vsum. rewrite Rsum_nil. ring.
  - inversion F as [|? ? [Lb Pb] F']; subst. destruct (np_bin_ok Rplus acc a) as (z & Ez & Sz & Vz); auto. { now apply (le1_bcompat _ _ G). }
    rewrite Ez. cbn [rbind]. destruct (IH z) as (r & Er & Sr & Vr); auto. { rewrite Sz. now apply le1_bmax. } { rewrite Sz. now apply bmax_pos. }
    exists r. split; [exact Er|]. split.
    + rewrite Sr, Sz. cbn [map bmaxs fold_right]. now rewrite bmax_assoc.
    + intros i Hi. rewrite Vr by auto. unfold vsum. rewrite Rsum_cons, Sz. rewrite Vz.
      2:{ pose proof (Forall2_length' _ _ _ La). pose proof (Forall2_length' _ _ _ Lb). pose proof (indices_length _ _ Hi). unfold ndim. rewrite clamp_length, bmax_len. lia. }
      rewrite (clamp_bmax_l _ _ G) by auto. rewrite (bmax_sym (shp acc)). rewrite (clamp_bmax_l (shp a) _ G) by auto. ring.
Qed.
Lemma fold_add0 G l : posl G -> Forall (fun a => le1 (shp a) G /\ posl (shp a)) l -> l <> [] ->
  exists r, ofold (fun acc a => np_bin Rplus acc a) l (np_scalar 0) = Ok r /\ shp r = bmaxs (map shp l) /\
    forall i, In i (indices G) -> el r (clamp (shp r) i) = vsum l i.
Proof.
  intros PG F NE. destruct l as [|a l]; [congruence|]. inversion F as [|? ? [La Pa] F']; subst. cbn [ofold].
  destruct (np_bin_scalar Rplus (np_scalar 0) a eq_refl Pa) as (z & Ez & Sz & Vz). rewrite Ez. cbn [rbind].
  destruct (fold_add G PG l z) as (r & Er & Sr & Vr); auto. { now rewrite Sz. } { now rewrite Sz. }
  exists r. split; [exact Er|]. split; [now rewrite Sr, Sz|]. intros i Hi. rewrite Vr by auto. unfold vsum. rewrite Rsum_cons. f_equal.
  rewrite Sz, Vz by (now apply (le1_in _ G)). cbn [np_scalar el]. ring.
Qed.
Lemma np_bin_scalar_r op a c : posl (shp a) ->
  exists r, np_bin op a (np_scalar c) = Ok r /\ shp r = shp a /\ forall i, In i (indices (shp a)) -> el r i = op (el a i) c.
Proof.
  intros P. unfold np_bin, ndim. cbn [np_scalar shp length]. rewrite Nat.max_0_r. unfold pad. cbn [length]. rewrite Nat.sub_diag, Nat.sub_0_r, app_nil_r. cbn [repeat app].
  rewrite (bshape_bmax _ _ (bcompat_sym _ _ (bcompat_ones (shp a)))) by (auto; apply pos_ones). rewrite bmax_sym, bmax_ones by auto.
  eexists; split; [reflexivity|]. cbn [shp el]. split; [reflexivity|]. intros i Hi. rewrite (align_same (shp a)) by (now apply indices_length).
  rewrite clamp_in by auto. reflexivity.
Qed.

(** *** One element *)
Lemma undots_last e l : nodots l -> undots e (l ++ [Dots]) = l ++ repeat Sl e.
Proof. induction 1 as [|[] l H _ IH]; cbn [app undots]; rewrite ?IH; auto. - now rewrite app_nil_r. - now destruct H. Qed.
Lemma np_index_last l a : nodots l -> (count_sl l <= ndim a)%nat -> np_index (l ++ [Dots]) a = np_index (l ++ repeat Sl (ndim a - count_sl l)) a.
Proof.
  intros H L. unfold np_index. rewrite !count_sl_app, count_sl_sl. cbn [count_sl]. rewrite Nat.add_0_r.
  replace (Nat.ltb (ndim a) (count_sl l)) with false by (symmetry; apply Nat.ltb_ge; lia).
  replace (Nat.ltb _ _) with false by (symmetry; apply Nat.ltb_ge; lia).
  rewrite undots_last by auto. replace (ndim a - (count_sl l + (ndim a - count_sl l)))%nat with 0%nat by lia.
  rewrite undots_0; auto. apply nodots_app; auto using nodots_sl.
Qed.
Lemma gsel_split g r : g = 0%nat \/ g = r -> repeat Nw (r - g) ++ repeat Sl g = gsel g r.
Proof.
  intros [-> | ->]; unfold gsel.
  - rewrite Nat.sub_0_r. cbn [repeat Nat.ltb Nat.leb]. now rewrite app_nil_r.
  - rewrite Nat.sub_diag. cbn [repeat app]. destruct r; reflexivity.
Qed.
Lemma seq_pick (l : list nat) p : forall b a, (p + a + b <= length l)%nat ->
  rmapM (fun k => match nth_error l (p + k) with Some s => Ok s | None => Raise IndexError end) (seq a b) = Ok (firstn b (skipn (p + a) l)).
Proof.
  induction b as [|b IH]; intros a H; cbn [seq rmapM]; [reflexivity|].
  destruct (nth_error l (p + a)) as [s|] eqn:E; [|apply nth_error_None in E; lia]. cbn [rbind]. rewrite IH by lia. cbn [rbind].
  f_equal. replace (p + S a)%nat with (S (p + a)) by lia. clear - E. revert E. generalize (p + a)%nat. intros q E. revert l E; induction q as [|q IHq]; intros [|h l] E; cbn in E; try discriminate.
  - injection E as ->. reflexivity.
  - cbn [skipn]. now apply IHq.
Qed.
Lemma rmapM_app {A B} (f : A -> res B) l l' r r' : rmapM f l = Ok r -> rmapM f l' = Ok r' -> rmapM f (l ++ l') = Ok (r ++ r').
Proof.
  revert r; induction l as [|a l IH]; intros r E E'; cbn [rmapM app] in *; [injection E as <-; auto|].
  destruct (f a); cbn [rbind] in *; [|discriminate]. destruct (rmapM f l) as [q|]; cbn [rbind] in *; [|discriminate]. injection E as <-. rewrite (IH q) by auto. reflexivity.
Qed.
Definition dpart (sd : bool) (D : list nat) : list nat := if sd then D else [].
Lemma el_shape t n d (sd : bool) : wf t -> nn t = n -> dm t = d ->
  rmapM (fun k => match nth_error (shp (tv t)) (xd t + yd t + k) with Some s => Ok s | None => Raise IndexError end)
        (seq 0 n ++ if sd then seq n d else []) = Ok (sN t ++ dpart sd (sD t)).
Proof.
  intros W <- <-. pose proof (wf_len t W) as L. apply rmapM_app.
  - rewrite seq_pick by lia. rewrite Nat.add_0_r. reflexivity.
  - destruct sd; [|reflexivity]. rewrite seq_pick by lia. unfold sD, dpart. f_equal. apply firstn_all2. rewrite skipn_length. lia.
Qed.
Lemma below_glen g T n : below g T -> length T = n -> glen g n.
Proof. intros [->|H] L; [now left|]. right. apply Forall2_length' in H. lia. Qed.
Lemma le1_ones G : le1 (repeat 1%nat (length G)) G.
Proof. induction G; cbn [length repeat]; constructor; auto. Qed.
Lemma below_grp g T n : below g T -> length T = n -> le1 (grp g n) T.
Proof. intros [->|H] L; cbn [grp]; [subst; apply le1_ones|]. destruct g; [cbn [grp]; inversion H; subst; constructor|exact H]. Qed.

Lemma step_ok gx gy T t (sd : bool) : spos T -> fits T t -> length (SX T) = gx -> length (SY T) = gy ->
  le1 (sN t) (SN T) -> le1 (sD t) (SD T) ->
  exists u a b, tsum t SVTrue sd = Ok u /\
    np_index (repeat Nw (gx - xd t) ++ repeat Sl (xd t) ++ repeat Nw (gy - yd t) ++ repeat Sl (yd t) ++ [Dots]) (tv u) = Ok a /\
    np_bin Rmult a (np_scalar (INR (prodn (SN T ++ dpart sd (SD T))) / INR (prodn (sN t ++ dpart sd (sD t))))) = Ok b /\
    shp b = grp (xs (den t)) gx ++ grp (ys (den t)) gy ++ (if sd then [] else sD t) /\
    forall x y d, In x (indices (SX T)) -> In y (indices (SY T)) -> In d (indices (if sd then [] else SD T)) ->
      el b (clamp (shp b) (x ++ y ++ d)) = Rsum (fun n => Rsum (fun d' => get (den t) x y n d') (if sd then indices (SD T) else [d])) (indices (SN T)).
Proof.
  intros (PX & PY & PN & PD) F LX LY HN HD. destruct (tsum_ok t sd (ft_wf _ _ F) (ft_feat _ _ F)) as (u & Eu & Wu & Mx & My & Du). exists u.
  destruct (wf_den_pos t (ft_wf _ _ F)) as (QX & QY & QN & QD). cbn [den ns ds] in QN, QD.
  pose proof (wf_groups u Wu) as Gu. destruct (den_groups _ _ _ _ _ Gu) as (E1 & E2 & E3 & E4). rewrite Mx, My in *. cbn [msizes] in E1, E2.
  pose proof Du as (D1 & D2 & D3 & D4 & DV). cbn [dsum_axes xs ys ns ds] in D1, D2, D3, D4.
  rewrite E1 in D1. rewrite E2 in D2. rewrite E3 in D3. rewrite E4 in D4.
  assert (GX : glen (xs (den t)) gx) by (apply (below_glen _ (SX T)); auto; apply F).
  assert (GY : glen (ys (den t)) gy) by (apply (below_glen _ (SY T)); auto; apply F).
  assert (Lx : length (xs (den t)) = xd t) by (rewrite <- D1, (g_x _ _ _ _ _ Gu); unfold tsum in *; clear - F Eu D1 Gu; pose proof (wf_groups t (ft_wf _ _ F)) as G; destruct (den_groups _ _ _ _ _ G) as (K & _); rewrite <- (g_x _ _ _ _ _ Gu), D1, K, msizes_length, (g_x _ _ _ _ _ G); reflexivity).
  assert (Ly : length (ys (den t)) = yd t) by (pose proof (wf_groups t (ft_wf _ _ F)) as G; destruct (den_groups _ _ _ _ _ G) as (_ & K & _); rewrite K, msizes_length, (g_y _ _ _ _ _ G); reflexivity).
  set (Dr := if sd then [] else ds (den t)) in *.
  assert (Su : shp (tv u) = xs (den t) ++ ys (den t) ++ Dr). { rewrite (g_shp _ _ _ _ _ Gu), D1, D2, D3, D4. reflexivity. }
  assert (Dz : forall G n, glen G n -> length G = 0%nat \/ length G = n) by (intros G n [->|?]; auto).
  assert (Si : repeat Nw (gx - xd t) ++ repeat Sl (xd t) ++ repeat Nw (gy - yd t) ++ repeat Sl (yd t) ++ [Dots] = (gsel (xd t) gx ++ gsel (yd t) gy) ++ [Dots]).
  { rewrite <- !gsel_split. - now rewrite <- !app_assoc. - rewrite <- Ly; auto. - rewrite <- Lx; auto. }
  rewrite Si. clear Si. rewrite <- Lx, <- Ly.
  assert (Cs : count_sl (gsel (length (xs (den t))) gx ++ gsel (length (ys (den t))) gy) = (length (xs (den t)) + length (ys (den t)))%nat)
    by (now rewrite count_sl_app, !gsel_count by auto).
  assert (Nd : ndim (tv u) = (length (xs (den t)) + length (ys (den t)) + length Dr)%nat) by (unfold ndim; rewrite Su, !app_length; lia).
  assert (No : nodots (gsel (length (xs (den t))) gx ++ gsel (length (ys (den t))) gy)) by (apply nodots_app; apply gsel_nodots).
  rewrite np_index_last by (auto; lia). rewrite np_index_ok.
  2:{ apply nodots_app; auto using nodots_sl. } 2:{ rewrite count_sl_app, count_sl_sl. lia. }
  rewrite Cs, Nd. replace (length (xs (den t)) + length (ys (den t)) + length Dr - (length (xs (den t)) + length (ys (den t))))%nat with (length Dr) by lia.
  rewrite Su, <- app_assoc, !gsel_shape by auto.
  assert (Is : ishape (repeat Sl (length Dr)) Dr = Dr). { pose proof (ishape_sl' (length Dr) Dr [] [] ltac:(auto)) as Q. rewrite !app_nil_r in Q. rewrite Q. cbn. now rewrite ?app_nil_r. }
  rewrite Is. set (A := grp (xs (den t)) gx ++ grp (ys (den t)) gy ++ Dr).
  assert (PDr : posl Dr) by (unfold Dr; destruct sd; [constructor|exact QD]).
  assert (PA : posl A) by (unfold A; apply pos_app; split; [now apply grp_pos|]; apply pos_app; split; [now apply grp_pos|exact PDr]).
  set (c := INR (prodn (SN T ++ dpart sd (SD T))) / INR (prodn (sN t ++ dpart sd (sD t)))).
  destruct (np_bin_scalar_r Rmult (mkA A (fun i => el (tv u) (iidx (gsel (length (xs (den t))) gx ++ gsel (length (ys (den t))) gy ++ repeat Sl (length Dr)) i))) c PA) as (b & Eb & Sb & Vb).
  eexists. exists b. split; [exact Eu|]. split; [reflexivity|]. split; [exact Eb|]. cbn [shp] in Sb, Vb. split; [exact Sb|].
  intros x y d Hx Hy Hd. rewrite Sb.
  assert (LA : le1 A (SX T ++ SY T ++ (if sd then [] else SD T))).
  { unfold A. apply Forall2_app; [apply below_grp; auto; apply F|]. apply Forall2_app; [apply below_grp; auto; apply F|]. unfold Dr. destruct sd; [constructor|exact HD]. }
  rewrite Vb by (apply (le1_in _ (SX T ++ SY T ++ (if sd then [] else SD T))); auto; repeat apply in_indices_app2; auto).
  cbn [el]. unfold A.
  pose proof (indices_length _ _ Hx) as Hlx. pose proof (indices_length _ _ Hy) as Hly. pose proof (indices_length _ _ Hd) as Hld.
  assert (HldR : length d = length Dr) by (unfold Dr; destruct sd; [exact Hld|rewrite Hld; symmetry; apply (Forall2_length' _ _ _ HD)]).
  rewrite !clamp_app by (rewrite grp_length by auto; lia).
  assert (KL : forall G q i, length i = q -> glen G q -> length (clamp (grp G q) i) = q).
  { intros G q i Hi HG. rewrite clamp_length, grp_length by auto. lia. }
  rewrite !gsel_idx by (auto; apply KL; auto; lia). rewrite !ung_clamp.
  assert (Ii : iidx (repeat Sl (length Dr)) (clamp Dr d) = clamp Dr d).
  { apply iidx_sl_end. rewrite clamp_length. lia. }
  rewrite Ii.
  assert (EV : el (tv u) (clamp (xs (den t)) x ++ clamp (ys (den t)) y ++ clamp Dr d) = get (dsum_axes (den t) true sd) x y [] d).
  { unfold get. cbn [dsum_axes xs ys ns ds]. fold Dr. rewrite <- DV.
    - cbn [den at_]. rewrite Mx, My. cbn [stored deltas clamp app]. ring.
    - rewrite E1, D1. apply (below_in _ (SX T)); auto. apply F.
    - rewrite E2, D2. apply (below_in _ (SY T)); auto. apply F.
    - rewrite E3, D3. now left.
    - rewrite E4, D4. fold Dr. apply (le1_in Dr (if sd then [] else SD T)); auto. unfold Dr. destruct sd; [constructor|exact HD]. }
  rewrite EV, FuncCollapse.get_dsum_axes. cbn [den ns ds].
  unfold c. rewrite !prodn_app', !mult_INR.
  set (H := fun n d' => get (den t) x y n d').
  assert (HC : forall n d', H n d' = H (clamp (sN t) n) (clamp (sD t) d')).
  { intros n d'. unfold H, get. cbn [den ns ds]. now rewrite !clamp_idem. }
  assert (NP : forall l, posl l -> INR (prodn l) <> 0) by (intros l P; apply not_0_INR; pose proof (prodn_pos l P); lia).
  transitivity (Rsum (fun n => Rsum (fun d' => H (clamp (sN t) n) d') (if sd then indices (SD T) else [d])) (indices (SN T))).
  2:{ apply Rsum_ext; intros n _. apply Rsum_ext; intros d' _. rewrite (HC n d'), (HC (clamp (sN t) n) d'). now rewrite clamp_idem. }
  rewrite (Rsum_bcast (sN t) (SN T) HN QN PN (fun n => Rsum (fun d' => H n d') (if sd then indices (SD T) else [d]))).
  destruct sd; cbn [dpart].
  - rewrite (Rsum_ext (fun n => Rsum (fun d' => H n d') (indices (SD T))) (fun n => INR (prodn (SD T)) / INR (prodn (sD t)) * Rsum (H n) (indices (sD t)))).
    2:{ intros n _. rewrite <- (Rsum_bcast (sD t) (SD T) HD QD PD (H n)). apply Rsum_ext; intros d' _.
        rewrite (HC n d'), (HC n (clamp (sD t) d')). now rewrite clamp_idem. }
    rewrite Rsum_scal. change (fun n => Rsum (H n) (indices (sD t))) with (fun n => Rsum (fun d' => H n d') (indices (sD t))). unfold H. field. auto.
  - change (prodn []) with 1%nat. cbn [INR]. unfold H. field. auto.
Qed.

(** *** The whole formal sum *)
Lemma bmaxs_len n l : Forall (fun g => length g = n) l -> l <> [] -> length (bmaxs l) = n.
Proof.
  induction 1 as [|g l H F IH]; [congruence|]. intros _. cbn [bmaxs fold_right]. fold (bmaxs l). rewrite bmax_len.
  destruct l as [|h l]; [cbn; lia|]. rewrite IH by congruence. lia.
Qed.
Lemma bmaxs_app {A} (f h : A -> list nat) n l : Forall (fun e => length (f e) = n) l ->
  bmaxs (map (fun e => f e ++ h e) l) = bmaxs (map f l) ++ bmaxs (map h l).
Proof.
  induction 1 as [|e l H F IH]; [reflexivity|]. cbn [map bmaxs fold_right]. fold (bmaxs (map (fun e => f e ++ h e) l)) (bmaxs (map f l)) (bmaxs (map h l)). rewrite IH.
  destruct l as [|e' l]; [cbn [map bmaxs fold_right app]; now rewrite !bmax_nil_r|]. apply bmax_app. rewrite H. symmetry. apply bmaxs_len; [|discriminate]. now apply Forall_map.
Qed.
Lemma bmaxs_grp n l : Forall (fun g => glen g n /\ posl g) l -> l <> [] -> bmaxs (map (fun g => grp g n) l) = grp (bmaxs l) n.
Proof.
  induction 1 as [|g l [H P] F IH]; [congruence|]. intros _. cbn [map bmaxs fold_right]. fold (bmaxs (map (fun g => grp g n) l)) (bmaxs l).
  destruct l as [|g' l]; [cbn [map bmaxs fold_right]; now rewrite !bmax_nil_r|]. rewrite IH by congruence.
  set (b := bmaxs (g' :: l)) in *.
  assert (Gb : glen b n /\ posl b).
  { unfold b. clear - F. revert F. generalize (g' :: l). clear. intros l F. induction F as [|a l [Ha Pa] F IH]; cbn [bmaxs fold_right]; [split; [now left|constructor]|]. fold (bmaxs l). destruct IH as [I1 I2]. split; [|now apply bmax_pos].
    destruct Ha as [->|Ha]; [exact I1|]. right. rewrite bmax_len. destruct I1 as [->|I1]; cbn; lia. }
  destruct Gb as [Gb Pb]. destruct g as [|s g].
  - cbn [bmax grp]. rewrite <- (grp_length b n Gb) at 1. apply bmax_ones. now apply grp_pos.
  - destruct H as [H|H]; [discriminate|]. cbn [grp]. destruct b as [|s' b]; [|reflexivity].
    rewrite bmax_nil_r. cbn [grp]. rewrite bmax_sym, <- H. now apply bmax_ones.
Qed.
Lemma grp_full g n : length g = n -> grp g n = g.
Proof. intros <-. destruct g; reflexivity. Qed.
Lemma zip_bmax a s : length a = length s -> map (fun ab => Nat.max (fst ab) (snd ab)) (combine a s) = bmax a s.
Proof. revert s; induction a as [|x a IH]; intros [|y s] L; try discriminate; cbn; auto. rewrite IH by (cbn in L; lia). reflexivity. Qed.
Lemma fold_zip n l : Forall (fun g => length g = n /\ posl g) l -> l <> [] ->
  fold_left (fun a s => map (fun ab => Nat.max (fst ab) (snd ab)) (combine a s)) l (repeat 1%nat n) = bmaxs l.
Proof.
  intros F NE. assert (K : forall l acc, length acc = n -> Forall (fun g => length g = n /\ posl g) l ->
    fold_left (fun a s => map (fun ab => Nat.max (fst ab) (snd ab)) (combine a s)) l acc = bmax acc (bmaxs l)).
  { clear. induction l as [|g l IH]; intros acc La F; cbn [fold_left bmaxs fold_right]; [now rewrite bmax_nil_r|]. inversion F as [|? ? [Lg Pg] F']; subst. fold (bmaxs l).
    rewrite zip_bmax by congruence. rewrite IH; [symmetry; apply bmax_assoc| |auto]. rewrite bmax_len. lia. }
  rewrite K; auto using repeat_length. assert (L : length (bmaxs l) = n) by (apply bmaxs_len; auto; eapply Forall_impl; [|exact F]; intros; cbn beta in *; tauto).
  rewrite <- L. apply bmax_ones. apply bmaxs_pos. eapply Forall_impl; [|exact F]; intros; cbn beta in *; tauto.
Qed.
Lemma combine_map_r {A B} (f : A -> B) l : combine l (map f l) = map (fun e => (e, f e)) l.
Proof. induction l; cbn; auto. f_equal; auto. Qed.
Lemma ofold_same {A B C} (F : C -> B -> res C) (G : C -> A -> res C) l l' :
  Forall2 (fun b a => forall acc, F acc b = G acc a) l' l -> forall acc, ofold F l' acc = ofold G l acc.
Proof. induction 1 as [|b a l' l H _ IH]; intros acc; cbn [ofold]; auto. rewrite H. destruct (G acc a); cbn [rbind]; auto. Qed.
Lemma Forall_exists_list {A B} (P : A -> B -> Prop) l : Forall (fun a => exists b, P a b) l -> exists bs, Forall2 P l bs.
Proof. induction 1 as [|a l [b H] _ [bs IH]]; [exists []; constructor|]. exists (b :: bs). now constructor. Qed.
Lemma Forall2_map_eq {A B C} (f : A -> C) (h : B -> C) (l : list A) (bs : list B) : Forall2 (fun a b => h b = f a) l bs -> map h bs = map f l.
Proof. induction 1; cbn; auto. f_equal; auto. Qed.
Lemma Forall2_imp {A B} (P Q : A -> B -> Prop) l l' : (forall a b, P a b -> Q a b) -> Forall2 P l l' -> Forall2 Q l l'.
Proof. intros H. induction 1; constructor; auto. Qed.
Lemma Forall2_Rsum {A B} (P : A -> B -> Prop) (f : A -> R) (h : B -> R) l bs : Forall2 P l bs -> (forall a b, P a b -> h b = f a) -> Rsum h bs = Rsum f l.
Proof. intros H K. induction H as [|a b l bs Hab _ IH]; [reflexivity|]. rewrite !Rsum_cons, IH, (K a b Hab). reflexivity. Qed.
Lemma rmapM_map {A B} (f : A -> res B) h l : (forall a, In a l -> f a = Ok (h a)) -> rmapM f l = Ok (map h l).
Proof. induction l as [|a l IH]; intros H; cbn [rmapM map]; auto. rewrite H by now left. cbn [rbind]. rewrite IH; [reflexivity|]. intros; apply H; now right. Qed.

Lemma Forall2_map_lift {A A' B} (P : A -> B -> Prop) (Q : A' -> B -> Prop) (h : A -> A') l bs : Forall2 P l bs -> (forall a b, P a b -> Q (h a) b) -> Forall2 Q (map h l) bs.
Proof. intros H K. induction H; cbn [map]; constructor; auto. Qed.
Lemma Forall2_right {A B} (P : A -> B -> Prop) (Q : B -> Prop) l bs : Forall2 P l bs -> (forall a b, P a b -> Q b) -> Forall Q bs.
Proof. intros H K. induction H; constructor; eauto. Qed.
Record gready (g : gtensor) (T : shape4) : Prop := mkReady {
  gr_pos : spos T; gr_x : length (SX T) = gx g; gr_y : length (SY T) = gy g; gr_n : length (SN T) = gn g; gr_d : length (SD T) = gd g;
  gr_el : forall e, In e (els g) -> exists t, e = IT t /\ fits T t /\ nn t = gn g /\ dm t = gd g /\ le1 (sN t) (SN T) /\ le1 (sD t) (SD T) }.
Lemma uniform_ready S g : spos S -> gfits S g -> uniform g -> els g <> [] -> gready g (gshape (els g)).
Proof.
  intros PS Fg [Ux Uy U] NE. assert (A : allfit (gshape (els g)) (els g)) by (apply (allfit_own S); auto).
  pose proof (shape_gden g) as SG. set (T := gshape (els g)) in *.
  assert (Q : forall e, In e (els g) -> exists t, e = IT t /\ fits T t /\ nn t = gn g /\ dm t = gd g).
  { intros e He. destruct (proj1 (Forall_forall _ _) A e He) as (t & -> & Ft). exists t. split; [reflexivity|]. split; [exact Ft|]. now apply U. }
  assert (LN : length (SN T) = gn g).
  { unfold T, gshape. cbn [SN]. apply bmaxs_len; [|destruct (els g); [congruence|discriminate]]. apply Forall_map, Forall_forall. intros e He.
    destruct (Q e He) as (t & -> & Ft & E & _). cbn [iden den ns]. rewrite <- E. apply (g_n _ _ _ _ _ (wf_groups t (ft_wf _ _ Ft))). }
  assert (LD : length (SD T) = gd g).
  { unfold T, gshape. cbn [SD]. apply bmaxs_len; [|destruct (els g); [congruence|discriminate]]. apply Forall_map, Forall_forall. intros e He.
    destruct (Q e He) as (t & -> & Ft & _ & E). cbn [iden den ds]. rewrite <- E. apply (g_d _ _ _ _ _ (wf_groups t (ft_wf _ _ Ft))). }
  constructor; auto.
  - apply (gshape_spos S); auto.
  - rewrite Ux, <- SG. reflexivity.
  - rewrite Uy, <- SG. reflexivity.
  - intros e He. destruct (Q e He) as (t & -> & Ft & E1 & E2). exists t. pose proof (wf_groups t (ft_wf _ _ Ft)) as G. repeat (split; [solve [auto]|]).
    split; (apply below_len; [apply Ft|]); [rewrite (g_n _ _ _ _ _ G)|rewrite (g_d _ _ _ _ _ G)]; congruence.
Qed.
(** the number of entries summed: lines 258-267 *)
Lemma size_ok g T (sd : bool) (sv : bool) : gready g T -> els g <> [] -> T = gshape (els g) ->
  let sh e := (if sv then ns (iden e) else []) ++ dpart sd (ds (iden e)) in
  rmapM (on_item (fun t => rmapM (fun k => match nth_error (shp (tv t)) (xd t + yd t + k) with Some s => Ok s | None => Raise IndexError end)
          ((if sv then seq 0 (gn g) else []) ++ if sd then seq (gn g) (gd g) else []))) (els g) = Ok (map sh (els g)) /\
  fold_left (fun a s => map (fun ab => Nat.max (fst ab) (snd ab)) (combine a s)) (map sh (els g))
    (repeat 1%nat (length ((if sv then seq 0 (gn g) else []) ++ if sd then seq (gn g) (gd g) else []))) = (if sv then SN T else []) ++ dpart sd (SD T).
Proof.
  intros R NE ET sh. split.
  - apply rmapM_map. intros e He. destruct (gr_el _ _ R e He) as (t & -> & Ft & E1 & E2 & _). cbn [on_item]. pose proof (wf_len t (ft_wf _ _ Ft)) as L.
    apply rmapM_app.
    + destruct sv; [|reflexivity]. rewrite seq_pick by lia. rewrite Nat.add_0_r, <- E1. reflexivity.
    + destruct sd; [|reflexivity]. rewrite seq_pick by lia. cbn [dpart iden den ds]. unfold sD. f_equal. rewrite <- E1. apply firstn_all2. rewrite skipn_length. lia.
  - assert (LL : forall e, In e (els g) -> length (ns (iden e)) = gn g /\ length (ds (iden e)) = gd g /\ posl (ns (iden e)) /\ posl (ds (iden e))).
    { intros e He. destruct (gr_el _ _ R e He) as (t & -> & Ft & E1 & E2 & _). pose proof (wf_groups t (ft_wf _ _ Ft)) as G. destruct (wf_den_pos t (ft_wf _ _ Ft)) as (_ & _ & P3 & P4).
      cbn [iden den ns ds] in *. rewrite (g_n _ _ _ _ _ G), (g_d _ _ _ _ _ G). auto. }
    rewrite fold_zip.
    + unfold sh. rewrite (bmaxs_app _ _ (if sv then gn g else 0%nat)).
      * f_equal.
        -- destruct sv; [rewrite ET; reflexivity|]. clear. induction (els g); cbn; auto.
        -- destruct sd; [rewrite ET; reflexivity|]. clear. induction (els g); cbn; auto.
      * apply Forall_forall. intros e He. destruct (LL e He) as (? & _). destruct sv; auto.
    + apply Forall_map, Forall_forall. intros e He. destruct (LL e He) as (L1 & L2 & P1 & P2). unfold sh. rewrite !app_length.
      split; [|apply pos_app; split; [destruct sv; [exact P1|constructor]|destruct sd; [exact P2|constructor]]].
      destruct sv, sd; cbn [dpart length]; rewrite ?seq_length; lia.
    + destruct (els g); [congruence|discriminate].
Qed.
Theorem gsum_ok S g (sd : bool) : spos S -> gfits S g -> uniform g -> els g <> [] ->
  exists t, gsum g SVTrue sd = Ok (PT t) /\ wf t /\ xm t = [] /\ ym t = [] /\ dsame (den t) (dsum_axes (gden g) true sd).
Proof.
  intros PS Fg U NE. pose proof (uniform_ready S g PS Fg U NE) as R. pose proof (shape_gden g) as SG. set (T := gshape (els g)) in *.
  destruct (size_ok g T sd true R NE eq_refl) as [E1 E2]. cbn [app] in E1, E2. destruct (gr_pos _ _ R) as (PX & PY & PN & PD).
  unfold gsum. cbn [andb negb]. rewrite E1. cbn [rbind]. rewrite E2. clear E1 E2.
  rewrite combine_map_r.
  set (Dr := if sd then [] else SD T).
  assert (PDr : posl Dr) by (unfold Dr; destruct sd; [constructor|exact PD]).
  (* the arrays that are added *)
  match goal with |- exists t, rbind (ofold ?F _ _) _ = _ /\ _ => set (step := F) end.
  assert (B : exists bs, Forall2 (fun e b => (forall acc, step acc (e, ns (iden e) ++ dpart sd (ds (iden e))) = np_bin Rplus acc b) /\
      shp b = grp (xs (iden e)) (gx g) ++ grp (ys (iden e)) (gy g) ++ (if sd then [] else ds (iden e)) /\
      (le1 (shp b) (SX T ++ SY T ++ Dr) /\ posl (shp b)) /\
      forall x y d, In x (indices (SX T)) -> In y (indices (SY T)) -> In d (indices Dr) ->
        el b (clamp (shp b) (x ++ y ++ d)) = Rsum (fun n => Rsum (fun d' => get (iden e) x y n d') (if sd then indices (SD T) else [d])) (indices (SN T))) (els g) bs).
  { apply Forall_exists_list, Forall_forall. intros e He. destruct (gr_el _ _ R e He) as (t & -> & Ft & En & Ed & HN & HD).
    destruct (step_ok (gx g) (gy g) T t sd (gr_pos _ _ R) Ft (gr_x _ _ R) (gr_y _ _ R) HN HD) as (u & a & b & Eu & Ea & Eb & Sb & Vb).
    exists b. cbn [iden]. split; [|split; [exact Sb|split; [|exact Vb]]].
    - intros acc. unfold step. cbn [on_item]. rewrite Eu. cbn [rbind]. rewrite Ea. cbn [rbind]. cbn [den ns ds]. rewrite Eb. reflexivity.
    - rewrite Sb. destruct (wf_den_pos t (ft_wf _ _ Ft)) as (Q1 & Q2 & Q3 & Q4). cbn [den ns ds] in Q3, Q4. split.
      + apply Forall2_app; [apply below_grp; [apply Ft|apply R]|]. apply Forall2_app; [apply below_grp; [apply Ft|apply R]|]. unfold Dr; destruct sd; [constructor|exact HD].
      + apply pos_app; split; [now apply grp_pos|]. apply pos_app; split; [now apply grp_pos|]. destruct sd; [constructor|exact Q4]. }
  destruct B as (bs & B).
  rewrite (ofold_same step (fun acc b => np_bin Rplus acc b) bs).
  2:{ eapply Forall2_map_lift; [exact B|]. intros e b H. exact (proj1 H). }
  destruct (fold_add0 (SX T ++ SY T ++ Dr) bs) as (r & Er & Sr & Vr).
  { apply pos_app; split; auto. apply pos_app; auto. }
  { eapply Forall2_right; [exact B|]. intros e b H. apply H. }
  { intros ->. inversion B. congruence. }
  assert (Sr' : shp r = SX T ++ SY T ++ Dr).
  { rewrite Sr. rewrite (Forall2_map_eq (fun e => grp (xs (iden e)) (gx g) ++ grp (ys (iden e)) (gy g) ++ (if sd then [] else ds (iden e))) shp (els g) bs).
    2:{ eapply Forall2_imp; [|exact B]. intros e b H. apply H. }
    assert (GL : forall e, In e (els g) -> (glen (xs (iden e)) (gx g) /\ posl (xs (iden e))) /\ (glen (ys (iden e)) (gy g) /\ posl (ys (iden e)))).
    { intros e He. destruct (gr_el _ _ R e He) as (t & -> & Ft & _). destruct (wf_den_pos t (ft_wf _ _ Ft)) as (Q1 & Q2 & _). cbn [iden].
      split; (split; [|assumption]); eapply below_glen; try apply Ft; apply R. }
    rewrite (bmaxs_app (fun e => grp (xs (iden e)) (gx g)) _ (gx g)).
    2:{ apply Forall_forall. intros e He. apply grp_length. now apply GL. }
    rewrite (bmaxs_app (fun e => grp (ys (iden e)) (gy g)) _ (gy g)).
    2:{ apply Forall_forall. intros e He. apply grp_length. now apply GL. }
    rewrite <- (map_map (fun e => xs (iden e)) (fun z => grp z (gx g))), <- (map_map (fun e => ys (iden e)) (fun z => grp z (gy g))).
    rewrite !bmaxs_grp by (try (destruct (els g); [congruence|discriminate]); apply Forall_map, Forall_forall; intros; now apply GL).
    rewrite !grp_full by (apply R). f_equal. f_equal. unfold Dr. destruct sd; [|reflexivity]. clear. induction (els g); cbn; auto. }
  rewrite Er. cbn [rbind].
  destruct (Tensor_ok r (SX T) (SY T) [] Dr [] [] (gx g) (gy g) (if sd then 0%nat else gd g)) as (t & Et & Gt & Vt & Mx & My).
  { exact Sr'. } { symmetry; apply R. } { symmetry; apply R. } { unfold Dr. destruct sd; [reflexivity|]. symmetry; apply R. }
  rewrite Et. cbn [rbind]. exists t. split; [reflexivity|].
  split. { apply (wf_of t _ _ _ _ Gt); auto; [constructor| |]; [rewrite Mx|rewrite My]; (split; [exact I|split; constructor]). }
  split; [exact Mx|]. split; [exact My|].
  pose proof (den_groups _ _ _ _ _ Gt) as (D1 & D2 & D3 & D4). rewrite Mx in D1. rewrite My in D2. cbn [msizes] in D1, D2.
  assert (ST : shape_of (gden g) = T) by exact SG.
  apply dsame_intro.
  - unfold shape_of. rewrite D1, D2, D3, D4. cbn [dsum_axes xs ys ns ds]. unfold Dr. rewrite <- ST. reflexivity.
  - unfold shape_of, at_shape. cbn [SX SY SN SD]. rewrite D1, D2, D3, D4. intros x y n d (Hx & Hy & Hn & Hd).
    destruct Hn as [<-|[]].
    assert (EG : get (den t) x y [] d = el r (x ++ y ++ d)).
    { unfold get. rewrite D1, D2, D3, D4. rewrite (clamp_in _ x), (clamp_in _ y), (clamp_in _ d) by auto. cbn [den at_]. rewrite Mx, My, Vt. cbn [stored deltas clamp app]. ring. }
    rewrite EG, FuncCollapse.get_dsum_axes.
    assert (Hi : In (x ++ y ++ d) (indices (SX T ++ SY T ++ Dr))) by (repeat apply in_indices_app2; auto).
    rewrite <- (clamp_in (shp r) (x ++ y ++ d)) by (rewrite Sr'; exact Hi). rewrite Vr by auto. unfold vsum.
    rewrite (Forall2_Rsum _ (fun e => Rsum (fun n => Rsum (fun d' => get (iden e) x y n d') (if sd then indices (SD T) else [d])) (indices (SN T))) _ _ _ B).
    2:{ intros e b H. now apply H. }
    replace (ns (gden g)) with (SN T) by (rewrite <- ST; reflexivity). replace (ds (gden g)) with (SD T) by (rewrite <- ST; reflexivity).
    rewrite Rsum_swap. apply Rsum_ext; intros n' _. rewrite Rsum_swap. apply Rsum_ext; intros d' _. rewrite get_gden. reflexivity.
Qed.

From Coq Require Import Reals Sorting.Sorted Sorting.Permutation Lra.
From Verif Require Import Prelude PrepModel PrepSpec.
Local Open Scope R_scope.

Lemma NoDup_map_in {A B} (f : A -> B) l : NoDup l -> (forall a b, In a l -> In b l -> f a = f b -> a = b) -> NoDup (map f l).
Proof.
  induction 1 as [|a l Ha Hl IH]; intros H; cbn; constructor.
  - rewrite in_map_iff. intros (b & E & Hb). apply Ha. rewrite (H a b); auto; [now left|now right].
  - apply IH. intros; apply H; auto; now right.
Qed.
Lemma NoDup_app_in {A} (l l' : list A) : NoDup l -> NoDup l' -> (forall x, In x l -> In x l' -> False) -> NoDup (l ++ l').
Proof.
  induction 1 as [|a l Ha Hl IH]; intros Hl' H; cbn; [assumption|]. constructor.
  - rewrite in_app_iff. intros [X|X]; [auto|]. apply (H a); [now left|exact X].
  - apply IH; auto. intros x X1 X2. apply (H x); [now right|exact X2].
Qed.
Section Order.
Variable L : Type.
Variable leb : L -> L -> bool.
Hypothesis TO : total_order leb.
Notation leqb := (leqb L leb).
Notation keyeqb := (keyeqb L leb).
Lemma leb_refl a : leb a a = true.
Proof. destruct TO as (T & _). now destruct (T a a). Qed.
Lemma leqb_eq a b : leqb a b = true <-> a = b.
Proof.
  unfold PrepModel.leqb. rewrite andb_true_iff. destruct TO as (T & A & _). split; [intros [? ?]; now apply A|].
  intros ->. split; apply leb_refl.
Qed.
Lemma keyeqb_eq a : forall b, keyeqb a b = true <-> a = b.
Proof.
  induction a as [|x a IH]; intros [|y b]; cbn [PrepModel.keyeqb]; try (split; [discriminate|discriminate]); [tauto|].
  rewrite andb_true_iff, leqb_eq, IH. split; [intros [-> ->]; reflexivity|]. intros H; inversion H; auto.
Qed.
Lemma keyeqb_spec a b : reflect (a = b) (keyeqb a b).
Proof. apply iff_reflect. symmetry. apply keyeqb_eq. Qed.
(** sorting *)
Lemma insert_in x l y : In y (insert L leb x l) <-> y = x \/ In y l.
Proof.
  induction l as [|z l IH]; cbn [insert]; [cbn; intuition|]. destruct (leb x z); cbn [In]; [intuition|]. rewrite IH. intuition.
Qed.
Lemma sorted_in l y : In y (sorted L leb l) <-> In y l.
Proof.
  unfold sorted. induction l as [|x l IH]; cbn [fold_right]; [tauto|]. rewrite insert_in, IH. cbn. intuition.
Qed.
Lemma insert_sorted x l : ~ In x l -> increasing leb l -> increasing leb (insert L leb x l).
Proof.
  destruct TO as (T & A & Tr).
  induction l as [|z l IH]; intros Hn Hs; cbn [insert].
  - constructor; constructor.
  - inversion Hs as [|? ? Hs' Hz]; subst. destruct (leb x z) eqn:E.
    + constructor; [exact Hs|]. constructor; [split; [exact E|intros ->; apply Hn; now left]|].
      rewrite Forall_forall in *. intros y Hy. destruct (Hz y Hy) as [Hzy Hne]. split; [now apply (Tr x z y)|].
      intros ->. apply Hn. now right.
    + constructor; [apply IH; [intros H; apply Hn; now right|exact Hs']|].
      rewrite Forall_forall in *. intros y Hy. apply insert_in in Hy. destruct Hy as [->|Hy]; [|now apply Hz].
      split; [destruct (T z x); [assumption|congruence]|]. intros ->. apply Hn. now left.
Qed.
Lemma sorted_increasing l : NoDup l -> increasing leb (sorted L leb l).
Proof.
  induction 1 as [|x l Hx Hn IH]; [constructor|]. cbn. apply insert_sorted; [|exact IH]. intros Hi. apply Hx. now apply sorted_in.
Qed.
Lemma existsb_leqb x l : existsb (leqb x) l = true <-> In x l.
Proof.
  rewrite existsb_exists. split; [intros (y & Hy & E); apply leqb_eq in E; now subst|]. intros H; exists x. split; [exact H|now apply leqb_eq].
Qed.
Lemma dedup_in l y : In y (dedup L leb l) <-> In y l.
Proof.
  induction l as [|x l IH]; cbn [dedup]; [tauto|]. destruct (existsb (leqb x) l) eqn:E; cbn [In]; rewrite IH; [|tauto].
  apply existsb_leqb in E. split; [tauto|]. intros [->|H]; assumption.
Qed.
Lemma dedup_NoDup l : NoDup (dedup L leb l).
Proof.
  induction l as [|x l IH]; cbn [dedup]; [constructor|]. destruct (existsb (leqb x) l) eqn:E; [exact IH|].
  constructor; [|exact IH]. rewrite dedup_in. intros H. apply existsb_leqb in H. congruence.
Qed.
Lemma increasing_NoDup l : increasing leb l -> NoDup l.
Proof.
  induction 1 as [|x l Hs IH Hf]; constructor; [|exact IH]. intros Hi. rewrite Forall_forall in Hf. now destruct (Hf x Hi).
Qed.
(** groups *)
Lemma selected_group {V} (rows : list (list L * V)) k : selected rows k (group L leb rows k).
Proof.
  unfold group. induction rows as [|[k' v] rows IH]; cbn [filter map]; [constructor|].
  cbn [fst]. destruct (keyeqb_spec k' k) as [->|Hne]; cbn [map snd]; now constructor.
Qed.
Lemma selected_fun {K V} (rows : list (K * V)) k vs : selected rows k vs -> forall vs', selected rows k vs' -> vs = vs'.
Proof.
  induction 1; intros vs' H'; inversion H'; subst; try congruence; try (f_equal; auto); auto.
Qed.
Lemma dedup_keys_in l y : In y (dedup_keys L leb l) <-> In y l.
Proof.
  induction l as [|x l IH]; cbn [dedup_keys]; [tauto|]. destruct (existsb (keyeqb x) l) eqn:E; cbn [In]; rewrite IH; [|tauto].
  split; [tauto|]. intros [->|H]; [|exact H]. apply existsb_exists in E. destruct E as (z & Hz & Ez). apply keyeqb_eq in Ez. now subst.
Qed.
Lemma lookup_map (f : list L -> option R) ks k :
  lookup L leb (map (fun k' => (k', f k')) ks) k = if existsb (keyeqb k) ks then f k else None.
Proof.
  induction ks as [|k' ks IH]; cbn [map lookup existsb]; [reflexivity|].
  destruct (keyeqb_spec k' k) as [->|Hne].
  - replace (keyeqb k k) with true by (symmetry; now apply keyeqb_eq). reflexivity.
  - rewrite IH. destruct (keyeqb_spec k k'); [congruence|]. reflexivity.
Qed.
Lemma group_nil {V} (rows : list (list L * V)) k : group L leb rows k = [] <-> ~ In k (map fst rows).
Proof.
  unfold group. induction rows as [|[k' v] rows IH]; cbn [filter map In fst]; [tauto|].
  destruct (keyeqb_spec k' k) as [->|Hne]; cbn [map snd]; [split; [discriminate|tauto]|]. rewrite IH. tauto.
Qed.
Lemma lookup_cell {V} (rows : list (list L * V)) f k :
  match lookup L leb (groupby_agg L leb rows f) k with Some v => v | None => 0 end = cell f (group L leb rows k).
Proof.
  unfold groupby_agg. rewrite (lookup_map (fun k => f (group L leb rows k))).
  destruct (existsb (keyeqb k) (dedup_keys L leb (map fst rows))) eqn:E.
  - apply existsb_exists in E. destruct E as (z & Hz & Ez). apply keyeqb_eq in Ez. subst z. apply (proj1 (dedup_keys_in _ _)) in Hz.
    unfold cell. destruct (group L leb rows k) eqn:G; [apply (proj1 (group_nil rows k)) in G; contradiction|reflexivity].
  - assert (Hn : ~ In k (map fst rows)).
    { intros H. apply (proj2 (dedup_keys_in _ _)) in H. assert (existsb (keyeqb k) (dedup_keys L leb (map fst rows)) = true); [|congruence].
      apply existsb_exists. exists k. split; [exact H|now apply keyeqb_eq]. }
    apply group_nil in Hn. rewrite Hn. reflexivity.
Qed.
(** products *)
Lemma from_product_length ax : length (from_product L ax) = prodn (map (@length L) ax).
Proof.
  induction ax as [|a ax IH]; cbn [from_product map prodn fold_right]; [reflexivity|].
  fold (prodn (map (@length L) ax)). rewrite <- IH. induction a as [|x a IHa]; cbn [flat_map length]; [reflexivity|].
  rewrite app_length, map_length, IHa. reflexivity.
Qed.
Lemma flat_map_nth {A B} (f : A -> list B) n l : (forall x, length (f x) = n) -> forall i j x, nth_error l i = Some x -> (j < n)%nat ->
  nth_error (flat_map f l) (i * n + j) = nth_error (f x) j.
Proof.
  intros H. induction l as [|y l IH]; intros [|i] j x E Hj; try discriminate; cbn [flat_map].
  - inversion E; subst. cbn. rewrite nth_error_app1 by now rewrite H. reflexivity.
  - rewrite nth_error_app2 by (rewrite H; cbn; lia). rewrite H. replace (S i * n + j - n)%nat with (i * n + j)%nat by (cbn; lia). now apply IH.
Qed.
Lemma from_product_nth ax : forall idx k, labels ax idx = Some k ->
  nth_error (from_product L ax) (ravel (map (@length L) ax) idx) = Some k /\ (ravel (map (@length L) ax) idx < prodn (map (@length L) ax))%nat.
Proof.
  induction ax as [|a ax IH]; intros [|i idx] k E; cbn [labels] in E; try discriminate.
  - inversion E; subst. cbn. split; [reflexivity|lia].
  - destruct (nth_error a i) as [x|] eqn:Ex; [|discriminate]. destruct (labels ax idx) as [k'|] eqn:Ek; [|discriminate]. inversion E; subst.
    destruct (IH idx k' Ek) as [H1 H2]. cbn [map ravel from_product prodn fold_right]. fold (prodn (map (@length L) ax)). split.
    + rewrite (flat_map_nth _ (prodn (map (@length L) ax))) with (x := x); auto.
      * now rewrite nth_error_map, H1.
      * intros y. rewrite map_length. apply from_product_length.
    + assert (i < length a)%nat by (apply nth_error_Some; congruence). nia.
Qed.
Lemma reindex_tabulates {V} ax (rows : list (list L * V)) f :
  tabulates ax rows f (map (@length L) ax, reindex_fillna L leb (groupby_agg L leb rows f) (from_product L ax)).
Proof.
  split; [reflexivity|]. cbn [fst snd]. unfold reindex_fillna. rewrite map_length. split; [apply from_product_length|].
  intros idx k vs Hk Hs. destruct (from_product_nth ax idx k Hk) as [H1 _]. rewrite nth_error_map, H1. cbn [option_map].
  f_equal. rewrite lookup_cell. f_equal. apply (selected_fun rows k); [apply selected_group|exact Hs].
Qed.
(** axes *)
Lemma assoc_split {A} (d : list (nat * A)) k v : assoc d k = Some v <-> exists pre post, d = pre ++ (k, v) :: post /\ ~ In k (map fst pre).
Proof.
  unfold assoc. induction d as [|[k' v'] d IH]; cbn [find fst].
  - split; [discriminate|]. intros ([|] & post & H & _); discriminate.
  - destruct (Nat.eqb_spec k' k) as [->|Hne].
    + split.
      * intros H; inversion H; subst. exists [], d. split; [reflexivity|intros []].
      * intros ([|p pre] & post & H & Hn); inversion H; subst; [reflexivity|]. exfalso. apply Hn. now left.
    + rewrite IH. split.
      * intros (pre & post & -> & Hn). exists ((k', v') :: pre), post. split; [reflexivity|]. intros [H|H]; [cbn in H; congruence|contradiction].
      * intros ([|p pre] & post & H & Hn); inversion H; subst; [congruence|]. exists pre, post. split; [reflexivity|]. intros Hi. apply Hn. now right.
Qed.
Lemma axes_spec levels add : Forall (fun nl => NoDup (snd nl)) levels ->
  Forall2 (fun a nl => increasing leb a /\ forall x, In x a <-> In x (snd nl) \/ extra add (fst nl) x) (axes L leb levels add) levels.
Proof.
  induction 1 as [|[n l] levels Hl H IH]; cbn [axes map]; constructor; [|exact IH]. cbn [fst snd] in *. clear IH H.
  destruct add as [d|].
  - destruct (assoc d n) as [e|] eqn:E.
    + split; [apply sorted_increasing, dedup_NoDup|]. intros x. rewrite sorted_in, dedup_in, in_app_iff, sorted_in.
      apply assoc_split in E. destruct E as (pre & post & -> & Hn). cbn [extra]. split.
      * intros [Hi|Hi]; [now left|right]. exists pre, e, post. auto.
      * intros [Hi|(pre' & l' & post' & Heq & Hn' & Hi)]; [now left|right].
        assert (Ea : assoc (pre ++ (n, e) :: post) n = Some l') by (apply assoc_split; eauto).
        assert (Eb : assoc (pre ++ (n, e) :: post) n = Some e) by (apply assoc_split; eauto). congruence.
    + split; [now apply sorted_increasing|]. intros x. rewrite sorted_in. split; [now left|]. intros [Hi|(pre & l' & post & -> & Hn & _)]; [exact Hi|].
      assert (assoc (pre ++ (n, l') :: post) n = Some l') by (apply assoc_split; eauto). congruence.
  - split; [now apply sorted_increasing|]. intros x. rewrite sorted_in. cbn. tauto.
Qed.
(** conservation *)
Lemma rsum_app l l' : rsum (l ++ l') = rsum l + rsum l'.
Proof. unfold rsum. induction l; cbn; [lra|rewrite IHl; lra]. Qed.
Lemma rsum_zero {A} (f : A -> R) l : (forall x, In x l -> f x = 0) -> rsum (map f l) = 0.
Proof. intros H. induction l as [|a l IH]; cbn; [reflexivity|]. unfold rsum in IH. rewrite IH, H; [lra|now left|]. intros; apply H; now right. Qed.
Lemma rsum_plus {A} (f g : A -> R) l : rsum (map (fun x => f x + g x) l) = rsum (map f l) + rsum (map g l).
Proof. induction l as [|a l IH]; cbn; [lra|]. unfold rsum in IH. rewrite IH. lra. Qed.
Lemma group_cons {V} k v (rows : list (list L * V)) k' : group L leb ((k, v) :: rows) k' = if keyeqb k k' then v :: group L leb rows k' else group L leb rows k'.
Proof. unfold group. cbn [filter fst]. now destruct (keyeqb k k'). Qed.
Lemma conserve {V} (g : V -> R) (rows : list (list L * V)) keys : NoDup keys -> (forall r, In r rows -> In (fst r) keys) ->
  rsum (map (fun k => rsum (map g (group L leb rows k))) keys) = rsum (map (fun r => g (snd r)) rows).
Proof.
  intros Hnd. induction rows as [|[k v] rows IH]; intros Hin.
  - cbn [map]. rewrite rsum_zero; [reflexivity|]. intros; reflexivity.
  - rewrite (map_ext _ (fun k' => (if keyeqb k k' then g v else 0) + rsum (map g (group L leb rows k')))).
    + rewrite rsum_plus, IH by (intros; apply Hin; now right). cbn [map rsum fold_right snd]. fold (rsum (map (fun r : list L * V => g (snd r)) rows)). f_equal.
      assert (Hk : In k keys) by (apply (Hin (k, v)); now left). clear -Hk Hnd TO.
      induction Hnd as [|x l Hx Hn IH]; [destruct Hk|]. cbn [map rsum fold_right]. fold (rsum (map (fun k' => if keyeqb k k' then g v else 0) l)).
      destruct (keyeqb_spec k x) as [->|Hne].
      * rewrite (rsum_zero (fun k' => if keyeqb x k' then g v else 0)); [lra|]. intros y Hy. destruct (keyeqb_spec x y); [subst; contradiction|reflexivity].
      * rewrite IH; [lra|]. destruct Hk; [congruence|assumption].
    + intros k'. rewrite group_cons. destruct (keyeqb k k'); cbn; fold (rsum (map g (group L leb rows k'))); lra.
Qed.
Lemma from_product_in ax : forall k, In k (from_product L ax) <-> Forall2 (fun x a => In x a) k ax.
Proof.
  induction ax as [|a ax IH]; intros k; cbn [from_product].
  - split; [intros [<-|[]]; constructor|]. intros H; inversion H. now left.
  - rewrite in_flat_map. split.
    + intros (x & Hx & Hk). apply in_map_iff in Hk. destruct Hk as (k' & <- & Hk'). constructor; [exact Hx|now apply IH].
    + intros H. inversion H as [|x ? k' ? Hx Hk']; subst. exists x. split; [exact Hx|]. apply in_map. now apply IH.
Qed.
Lemma from_product_NoDup ax : Forall (@NoDup L) ax -> NoDup (from_product L ax).
Proof.
  induction 1 as [|a ax Ha H IH]; cbn [from_product]; [repeat constructor; intros []|].
  induction Ha as [|x a Hx Hn IHa]; cbn [flat_map]; [constructor|].
  apply NoDup_app_in; [apply NoDup_map_in; [exact IH|]|exact IHa|].
  - intros u v _ _ E. now inversion E.
  - intros k H1 H2. apply in_map_iff in H1. destruct H1 as (k' & <- & _). apply in_flat_map in H2.
    destruct H2 as (y & Hy & H2). apply in_map_iff in H2. destruct H2 as (k'' & E & _). inversion E; subst. contradiction.
Qed.
Lemma axes_cover {V} levels add (rows : list (list L * V)) : index_ok levels rows ->
  NoDup (from_product L (axes L leb levels add)) /\ forall r, In r rows -> In (fst r) (from_product L (axes L leb levels add)).
Proof.
  intros [Hl Hr]. pose proof (axes_spec levels add Hl) as HA. split.
  - apply from_product_NoDup. clear -HA. induction HA as [|a nl ax lv [H1 _] _ IH]; constructor; [|exact IH]. now apply increasing_NoDup.
  - intros r Hin. rewrite Forall_forall in Hr. specialize (Hr r Hin). apply from_product_in. clear -HA Hr.
    revert HA. generalize (axes L leb levels add). induction Hr as [|x nl k lv Hx _ IH]; intros ax HA; inversion HA as [|a0 nl0 ax0 lv0 [_ Hin0] HA']; subst; constructor.
    + apply Hin0. now left.
    + now apply IH.
Qed.
Lemma total_cells {V} levels add (rows : list (list L * V)) g : index_ok levels rows ->
  rsum (reindex_fillna L leb (groupby_agg L leb rows (fun vs => Some (rsum (map g vs)))) (from_product L (axes L leb levels add)))
  = rsum (map (fun r => g (snd r)) rows).
Proof.
  intros H. destruct (axes_cover levels add rows H) as [Hn Hi]. rewrite <- (conserve g rows _ Hn Hi). unfold reindex_fillna. f_equal.
  apply map_ext. intros k. rewrite lookup_cell. unfold cell. destruct (group L leb rows k); reflexivity.
Qed.
End Order.

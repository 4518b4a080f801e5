(** Multi-indices in C order, and the lists of entries of blocks. *)
From Verif Require Import Prelude DenseModel AnalyticSpec DenseProofs NDArray NDProofs TensorModel TensorSpec TensorLemmas FuncModel FTModel FTSpec LTModel LTCell LTSpec LTDer ParamModel AssembleModel AssembleSpec OTModel OTBlock.
From Coq Require Import Reals Lra.
Import List ListNotations.
Open Scope R_scope.

Lemma flat_map_nth {A B} (f : A -> list B) m d e : forall l, (forall a, In a l -> length (f a) = m) ->
  forall k b, (k < length l)%nat -> (b < m)%nat -> nth (k * m + b) (flat_map f l) d = nth b (f (nth k l e)) d.
Proof.
  induction l as [|a l IH]; intros H k b Hk Hb; [cbn in Hk; lia|]. cbn [flat_map]. pose proof (H a (or_introl eq_refl)) as La. destruct k as [|k].
  - cbn [Nat.mul Nat.add nth]. now rewrite app_nth1 by lia.
  - rewrite app_nth2 by (rewrite La; cbn; lia). rewrite La. replace (Datatypes.S k * m + b - m)%nat with (k * m + b)%nat by (cbn; lia). cbn [nth]. apply IH; [intros a' Ha'; apply H; now right|cbn in Hk; lia|exact Hb].
Qed.
Lemma flat_map_len {A B} (f : A -> list B) m : forall l, (forall a, In a l -> length (f a) = m) -> length (flat_map f l) = (length l * m)%nat.
Proof. induction l as [|a l IH]; intros H; [reflexivity|]. cbn [flat_map]. rewrite app_length, (H a) by (now left). rewrite IH by (intros; apply H; now right). cbn. lia. Qed.
Lemma indices_len : forall sh, length (indices sh) = prodn sh.
Proof.
  induction sh as [|s sh IH]; [reflexivity|]. cbn [indices]. rewrite (flat_map_len _ (prodn sh)) by (intros; now rewrite map_length). rewrite seq_length. reflexivity.
Qed.
Lemma ravel_lt : forall sh x, In x (indices sh) -> (ravel sh x < prodn sh)%nat.
Proof.
  induction sh as [|s sh IH]; intros x Hx; [destruct Hx as [<-|[]]; cbn; lia|]. apply In_indices in Hx. inversion Hx as [|k ? x' ? Hk Hx']; subst. apply In_indices in Hx'. pose proof (IH x' Hx') as H.
  cbn [ravel]. change (prodn (s :: sh)) with (s * prodn sh)%nat. nia.
Qed.
Lemma nth_indices_cons s sh k b : (k < s)%nat -> (b < prodn sh)%nat -> nth (k * prodn sh + b) (indices (s :: sh)) [] = k :: nth b (indices sh) [].
Proof.
  intros Hk Hb. cbn [indices]. rewrite (flat_map_nth _ (prodn sh) _ O) by (rewrite ?seq_length; auto; intros; now rewrite map_length, indices_len).
  rewrite seq_nth by exact Hk. cbn [Nat.add]. rewrite (nth_indep _ [] (k :: [])) by (rewrite map_length, indices_len; exact Hb). now rewrite (map_nth (cons k)).
Qed.
Lemma nth_ravel : forall sh x, In x (indices sh) -> nth (ravel sh x) (indices sh) [] = x.
Proof.
  induction sh as [|s sh IH]; intros x Hx; [destruct Hx as [<-|[]]; reflexivity|]. apply In_indices in Hx. inversion Hx as [|k ? x' ? Hk Hx']; subst. apply In_indices in Hx'.
  cbn [ravel]. rewrite nth_indices_cons by (auto; now apply ravel_lt). now rewrite IH.
Qed.
Lemma ravel_nth : forall sh a, (a < prodn sh)%nat -> ravel sh (nth a (indices sh) []) = a.
Proof.
  induction sh as [|s sh IH]; intros a Ha; [cbn in *; lia|]. change (prodn (s :: sh)) with (s * prodn sh)%nat in Ha. assert (Hp : (prodn sh <> 0)%nat) by nia.
  pose proof (Nat.div_mod a (prodn sh) Hp) as E. pose proof (Nat.mod_upper_bound a (prodn sh) Hp) as Hm. assert (Hd : (a / prodn sh < s)%nat) by (apply Nat.div_lt_upper_bound; lia).
  rewrite E at 1. rewrite (Nat.mul_comm (prodn sh)). rewrite nth_indices_cons by assumption. cbn [ravel]. rewrite IH by exact Hm. lia.
Qed.
Lemma nth_in_indices sh a : (a < prodn sh)%nat -> In (nth a (indices sh) []) (indices sh).
Proof. intros H. apply nth_In. now rewrite indices_len. Qed.
Lemma prodn_app a b : prodn (a ++ b) = (prodn a * prodn b)%nat.
Proof. induction a as [|s a IH]; cbn [app]; [change (prodn []) with 1%nat; lia|]. change (prodn (s :: a ++ b)) with (s * prodn (a ++ b))%nat. change (prodn (s :: a)) with (s * prodn a)%nat. rewrite IH. lia. Qed.
Lemma ravel_app : forall X x Y y, In x (indices X) -> ravel (X ++ Y) (x ++ y) = (ravel X x * prodn Y + ravel Y y)%nat.
Proof.
  induction X as [|s X IH]; intros x Y y Hx; [destruct Hx as [<-|[]]; reflexivity|]. apply In_indices in Hx. inversion Hx as [|k ? x' ? Hk Hx']; subst. apply In_indices in Hx'.
  cbn [app ravel]. rewrite IH by exact Hx'. rewrite prodn_app. lia.
Qed.
Lemma nth_indices_app X Y a b : (a < prodn X)%nat -> (b < prodn Y)%nat -> nth (a * prodn Y + b) (indices (X ++ Y)) [] = nth a (indices X) [] ++ nth b (indices Y) [].
Proof.
  intros Ha Hb. pose proof (nth_in_indices X a Ha) as Ia. pose proof (nth_in_indices Y b Hb) as Ib.
  rewrite <- (nth_ravel (X ++ Y) (nth a (indices X) [] ++ nth b (indices Y) [])) by (now apply in_indices_app2). f_equal. rewrite ravel_app by exact Ia. now rewrite !ravel_nth.
Qed.

(** *** entries of blocks *)
Definition flatb (X Y : list nat) (B : idx -> idx -> R) : list R := map (fun z => B (firstn (length X) z) (skipn (length X) z)) (indices (X ++ Y)).
Lemma flatb_len X Y B : length (flatb X Y B) = (prodn X * prodn Y)%nat.
Proof. unfold flatb. now rewrite map_length, indices_len, prodn_app. Qed.
Lemma flatb_ext X Y B B' : (forall x y, In x (indices X) -> In y (indices Y) -> B x y = B' x y) -> flatb X Y B = flatb X Y B'.
Proof.
  intros H. apply map_ext_in. intros z Hz. apply in_indices_app in Hz. apply H; apply Hz.
Qed.
Lemma flatb_nth X Y B a b d : (a < prodn X)%nat -> (b < prodn Y)%nat -> nth (a * prodn Y + b) (flatb X Y B) d = B (nth a (indices X) []) (nth b (indices Y) []).
Proof.
  intros Ha Hb. unfold flatb. assert (L : (a * prodn Y + b < length (indices (X ++ Y)))%nat) by (rewrite indices_len, prodn_app; nia).
  rewrite (nth_indep _ d (B (firstn (length X) []) (skipn (length X) []))) by (now rewrite map_length). rewrite (map_nth (fun z => B (firstn (length X) z) (skipn (length X) z))), nth_indices_app by assumption.
  pose proof (indices_length _ _ (nth_in_indices X a Ha)) as Lx. rewrite <- Lx, firstn_app, skipn_app, firstn_all, skipn_all, Nat.sub_diag. cbn [firstn skipn app]. now rewrite app_nil_r.
Qed.
Lemma flatb_nth1 X B a d : (a < prodn X)%nat -> nth a (flatb X [] B) d = B (nth a (indices X) []) [].
Proof. intros Ha. pose proof (flatb_nth X [] B a 0 d Ha ltac:(cbn; lia)) as E. cbn [indices nth] in E. rewrite <- E. f_equal. change (prodn []) with 1%nat. lia. Qed.
Lemma blk_values X Y v B : blk X Y v B -> exists a, values v = Ok a /\ shp a = X ++ Y /\ entries a = flatb X Y B.
Proof.
  intros Bk. destruct (blk_array _ _ _ _ Bk) as (t & -> & Sh & V). exists (tv t). split; [reflexivity|]. split; [exact Sh|]. unfold entries, flatb. rewrite Sh. apply map_ext_in.
  intros z Hz. pose proof Hz as Hz'. apply in_indices_app in Hz' as [Hx Hy]. rewrite <- V by assumption. now rewrite firstn_skipn.
Qed.
(** a list of entries, possibly of a single one *)
Definition lb (X Y : list nat) (l : list R) (B : idx -> idx -> R) : Prop :=
  l = flatb X Y B \/ exists c, l = c :: nil /\ forall x y, In x (indices X) -> In y (indices Y) -> B x y = c.
Lemma map2_combine {A B C D} (f : B -> C -> D) (g : A -> B) (h : A -> C) l : map (fun '(x, y) => f x y) (combine (map g l) (map h l)) = map (fun z => f (g z) (h z)) l.
Proof. induction l; cbn; congruence. Qed.
Lemma vec_flatb f X Y A l B : lb X Y l B -> vec_op R f (flatb X Y A) l = Ok (flatb X Y (fun x y => f (A x y) (B x y))).
Proof.
  assert (Same : forall B, vec_op R f (flatb X Y A) (flatb X Y B) = Ok (flatb X Y (fun x y => f (A x y) (B x y)))).
  { intros C. unfold vec_op. rewrite !flatb_len, Nat.eqb_refl. unfold flatb. now rewrite map2_combine. }
  intros [->|(c & -> & H)]; [apply Same|]. unfold vec_op. destruct (Nat.eqb_spec (length (flatb X Y A)) (length (c :: nil))) as [E|N].
  - rewrite flatb_len in E. cbn in E. rewrite (flatb_ext X Y (fun x y => f (A x y) (B x y)) (fun x y => f (A x y) c)) by (intros; now rewrite H). unfold flatb. destruct (indices (X ++ Y)) as [|z [|z' r]] eqn:Ei; [| |].
    + pose proof (indices_len (X ++ Y)) as L. rewrite Ei, prodn_app in L. cbn in L. lia.
    + reflexivity.
    + pose proof (indices_len (X ++ Y)) as L. rewrite Ei, prodn_app in L. cbn in L. lia.
  - f_equal. rewrite (flatb_ext X Y (fun x y => f (A x y) (B x y)) (fun x y => f (A x y) c)) by (intros; now rewrite H). unfold flatb. now rewrite map_map.
Qed.
(** value and list side by side *)
Definition rb (X Y : list nat) (v : pval) (l : list R) : Prop := exists B, blk X Y v B /\ l = flatb X Y B.
Definition rb1 (X Y : list nat) (v : pval) (l : list R) : Prop := exists B, blk1 X Y v B /\ lb X Y l B.
Definition opf (o : pyop) : R -> R -> R := match o with OAdd => Rplus | _ => Rminus end.
Lemma rb_op o X Y u v l l' : o = OAdd \/ o = OSub -> rb X Y u l -> rb1 X Y v l' -> exists w lw, py o u v = Ok w /\ vec_op R (opf o) l l' = Ok lw /\ rb X Y w lw.
Proof.
  intros Ho (A & Bu & ->) (B & Bv & Lb). destruct (blk_op o X Y u v A B Ho Bu Bv) as (w & Ew & Bw). exists w, (flatb X Y (fun x y => opf o (A x y) (B x y))).
  split; [exact Ew|]. split; [now apply vec_flatb|]. exists (fun x y => rop o (A x y) (B x y)). split; [exact Bw|]. apply flatb_ext. intros x y _ _. destruct Ho as [-> | ->]; reflexivity.
Qed.

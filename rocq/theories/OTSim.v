(** flat_grad and flat_hess with Tensors (OTModel.v) compute what they compute on
    the lists of entries of the blocks (AssembleModel.v). *)
From Verif Require Import Prelude DenseModel AnalyticSpec DenseProofs NDArray NDProofs TensorModel TensorSpec TensorLemmas FuncModel FTModel FTSpec LTModel LTCell LTSpec LTDer ParamModel AssembleModel AssembleSpec OTModel OTBlock OTFlat.
From Coq Require Import Reals Lra.
Import List ListNotations.
Open Scope R_scope.

Lemma nth_error_upd {A} : forall (l : list A) k i v, (k < length l)%nat -> nth_error (upd_nth k v l) i = if Nat.eqb k i then Some v else nth_error l i.
Proof.
  induction l as [|a l IH]; intros k i v H; [cbn in H; lia|]. destruct k as [|k]; destruct i as [|i]; cbn [upd_nth nth_error Nat.eqb]; auto. apply IH. cbn in H. lia.
Qed.
Lemma nth_error_lt {A} (l : list A) k v : nth_error l k = Some v -> (k < length l)%nat.
Proof. intros H. apply nth_error_Some. congruence. Qed.
Lemma upd_nth_len {A} : forall (l : list A) k v, length (upd_nth k v l) = length l.
Proof. induction l as [|a l IH]; intros [|k] v; cbn; auto. Qed.

Section sim.
Variable params : list (param R).
Notation n := (length params).
Definition Sh (i : nat) : list nat := p_shape (nth i params noparam).

(** *** gradients *)
Definition rgrad (vs : list pval) (ls : list (list R)) : Prop :=
  length ls = n /\ forall i, (i < n)%nat -> exists v l, nth_error vs i = Some v /\ nth_error ls i = Some l /\ rb (Sh i) [] v l.
Fixpoint rblocks (pm : list nat) (bs : list pval) (bl : list (list R)) : Prop :=
  match pm, bs, bl with
  | k :: pm', b :: bs', l :: bl' => rb1 (Sh k) [] b l /\ rblocks pm' bs' bl'
  | [], [], [] => True
  | _, _, _ => False
  end.
Lemma upd_val_sim o vs ls k b l : o = OAdd \/ o = OSub -> rgrad vs ls -> (k < n)%nat -> rb1 (Sh k) [] b l ->
  exists vs' ls', upd_val o vs k b = Ok vs' /\ upd_at R (opf o) ls k l = Ok ls' /\ rgrad vs' ls'.
Proof.
  intros Ho [L H] Hk Hb. destruct (H k Hk) as (v & lv & E1 & E2 & Hr). destruct (rb_op o _ _ _ _ _ _ Ho Hr Hb) as (w & lw & W1 & W2 & W3).
  unfold upd_val, upd_at, rnth, nth_res. rewrite E1, E2. cbn [rbind]. rewrite W1, W2. cbn [rbind]. do 2 eexists. split; [reflexivity|]. split; [reflexivity|]. split; [now rewrite upd_nth_len|].
  intros i Hi. rewrite !nth_error_upd by (eapply nth_error_lt; eassumption). destruct (Nat.eqb_spec k i) as [<-|N]; [now exists w, lw|auto].
Qed.
Lemma acc_val_sim o : o = OAdd \/ o = OSub -> forall pm bs bl vs ls, rgrad vs ls -> Forall (fun k => k < n)%nat pm -> rblocks pm bs bl ->
  exists vs' ls', acc_val o vs pm bs = Ok vs' /\ acc_grad R (opf o) ls pm bl = Ok ls' /\ rgrad vs' ls'.
Proof.
  intros Ho. induction pm as [|k pm IH]; intros bs bl vs ls Hg Hp Hb.
  - exists vs, ls. auto.
  - destruct bs as [|b bs]; [destruct Hb|]. destruct bl as [|l bl]; [destruct Hb|]. destruct Hb as [Hb Hr]. inversion Hp as [|? ? Hk Hp']; subst.
    destruct (upd_val_sim o vs ls k b l Ho Hg Hk Hb) as (vs' & ls' & E1 & E2 & Hg'). cbn [acc_val acc_grad]. rewrite E1, E2. cbn [rbind]. now apply IH.
Qed.
(** the sums of the gradients of a constraint *)
Definition ra (sh : list nat) (a : nda) (l : list R) : Prop := shp a = sh /\ entries a = l.
Definition rarrs (hc : list nda) (ls : list (list R)) : Prop := Forall2 (fun a l => exists i, ra (Sh i) a l) hc ls.

(** *** Hessians *)
Definition rhess (hs : list (list pval)) (hl : list (list (list R))) : Prop :=
  length hl = n /\ forall i, (i < n)%nat -> exists r lr, nth_error hs i = Some r /\ nth_error hl i = Some lr /\ length lr = Datatypes.S i /\
    forall j, (j <= i)%nat -> exists v l, nth_error r j = Some v /\ nth_error lr j = Some l /\ rb (Sh i) (Sh j) v l.
Lemma upd_hval_sim o hs hl r c b l : o = OAdd \/ o = OSub -> rhess hs hl -> (c <= r < n)%nat -> rb1 (Sh r) (Sh c) b l ->
  exists hs' hl', upd_hval o hs r c b = Ok hs' /\ upd_hess R (opf o) hl r c l = Ok hl' /\ rhess hs' hl'.
Proof.
  intros Ho [L H] [Hc Hr] Hb. destruct (H r Hr) as (row & lrow & E1 & E2 & Lr & Hrow). destruct (Hrow c Hc) as (v & lv & F1 & F2 & Hv).
  destruct (rb_op o _ _ _ _ _ _ Ho Hv Hb) as (w & lw & W1 & W2 & W3).
  unfold upd_hval, upd_hess, upd_val, upd_at, rnth, nth_res. rewrite E1, E2. cbn [rbind]. rewrite F1, F2. cbn [rbind]. rewrite W1, W2. cbn [rbind].
  do 2 eexists. split; [reflexivity|]. split; [reflexivity|]. split; [now rewrite upd_nth_len|]. intros i Hi. rewrite !nth_error_upd by (eapply nth_error_lt; eassumption).
  destruct (Nat.eqb_spec r i) as [<-|N]; [|now apply H]. do 2 eexists. split; [reflexivity|]. split; [reflexivity|]. split; [now rewrite upd_nth_len|].
  intros j Hj. rewrite !nth_error_upd by (eapply nth_error_lt; eassumption). destruct (Nat.eqb_spec c j) as [<-|N]; [now exists w, lw|auto].
Qed.
Definition rhblocks (pm : list nat) (bs : list (list pval)) (bl : list (list (list R))) : Prop :=
  forall i j, (j <= i < length pm)%nat -> exists r lr b l, nth_error bs i = Some r /\ nth_error bl i = Some lr /\ nth_error r j = Some b /\ nth_error lr j = Some l /\
    rb1 (Sh (nth i pm O)) (Sh (nth j pm O)) b l.
Lemma acc_hval_sim o pm bs bl : o = OAdd \/ o = OSub -> ascending pm -> Forall (fun k => k < n)%nat pm -> rhblocks pm bs bl ->
  forall todo hs hl, rhess hs hl -> (forall i j, In (i, j) todo -> (j <= i < length pm)%nat) ->
  exists hs' hl', acc_hval o hs pm bs todo = Ok hs' /\ acc_hess R (opf o) hl pm bl todo = Ok hl' /\ rhess hs' hl'.
Proof.
  intros Ho As Hp Hb. induction todo as [|[i j] todo IH]; intros hs hl Hh Ht.
  - exists hs, hl. auto.
  - destruct (Ht i j (or_introl eq_refl)) as [Hj Hi]. destruct (Hb i j (conj Hj Hi)) as (r & lr & b & l & E1 & E2 & E3 & E4 & Hr).
    pose proof (nth_error_nth' pm O Hi) as Pi. assert (Hj' : (j < length pm)%nat) by lia. pose proof (nth_error_nth' pm O Hj') as Pj.
    assert (Hk : (nth j pm O <= nth i pm O < n)%nat) by (split; [apply As; lia|rewrite Forall_forall in Hp; apply Hp, nth_In, Hi]).
    destruct (upd_hval_sim o hs hl _ _ b l Ho Hh Hk Hr) as (hs' & hl' & U1 & U2 & Hh').
    cbn [acc_hval acc_hess]. unfold rnth2, rnth, nth_res. rewrite Pi, Pj, E1, E2. cbn [rbind]. rewrite E3, E4. cbn [rbind]. fold (upd_hval o hs (nth i pm O) (nth j pm O) b). rewrite U1, U2. cbn [rbind].
    apply IH; auto. intros i' j' Hin. apply Ht. now right.
Qed.
Lemma tri_pairs_lt m i j : In (i, j) (tri_pairs m) -> (j <= i < m)%nat.
Proof.
  unfold tri_pairs. rewrite in_flat_map. intros (k & Hk & Hin). apply in_map_iff in Hin as (q & E & Hq). injection E as -> ->. apply in_seq in Hk, Hq. lia.
Qed.
End sim.

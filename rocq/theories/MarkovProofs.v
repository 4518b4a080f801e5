From Coq Require Import Reals List Lra Lia.
From Coquelicot Require Import Coquelicot.
From Verif Require Import Prelude AnalyticSpec MarkovModel.
Import List ListNotations.
Local Open Scope R_scope.

(** ---- derivatives: an invariant of every elementary update ---- *)
Lemma D_addto (A : R -> nat * nat -> R) (v : R -> R) c d t a' v' :
  is_derive (fun s => A s d) t a' -> is_derive v t v' ->
  is_derive (fun s => addto (A s) c (v s) d) t
    (if (Nat.eqb (fst d) (fst c) && Nat.eqb (snd d) (snd c))%bool then a' + v' else a').
Proof. intros H1 H2. unfold addto. destruct (_ && _)%bool; [now apply D_plus|exact H1]. Qed.
Lemma D_addto1 (A : R -> nat -> R) (v : R -> R) c d t a' v' :
  is_derive (fun s => A s d) t a' -> is_derive v t v' ->
  is_derive (fun s => addto1 (A s) c (v s) d) t (if Nat.eqb d c then a' + v' else a').
Proof. intros H1 H2. unfold addto1. destruct (_ =? _)%nat; [now apply D_plus|exact H1]. Qed.

Ltac dstep :=
  lazymatch goal with
    | |- is_derive (fun s => addto (@?A s) ?c (@?v s) ?d) _ _ => eapply (D_addto A v c d)
    | |- is_derive (fun s => addto1 (@?A s) ?c (@?v s) ?d) _ _ => eapply (D_addto1 A v c d)
    | |- is_derive (fun s => @?f s + @?g s) _ _ => eapply (D_plus f g)
    | |- is_derive (fun s => - @?f s) _ _ => eapply (D_opp f)
    | |- is_derive (fun s => @?f s * @?g s) _ _ => eapply (D_mult f g)
    | |- is_derive (fun s => s) _ _ => eapply D_id
    | _ => first [ match goal with H : is_derive _ _ _ |- _ => exact H end | apply D_const ]
    end.
Ltac conjs := repeat match goal with |- _ /\ _ => split end.
Ltac dpoly := repeat dstep; cbv beta.

Section M.
Variables (size : nat) (skew : nat -> nat -> R).

Definition Inv (F : R -> R -> mm_state) : Prop := forall (s1 s2 : R) c,
  is_derive (fun s => sM (F s s2) c) s1 (sD1 (F s1 s2) c) /\
  is_derive (fun s => sM (F s1 s) c) s2 (sD2 (F s1 s2) c) /\
  is_derive (fun s => sD1 (F s s2) c) s1 (sH11 (F s1 s2) c) /\
  is_derive (fun s => sD2 (F s1 s) c) s2 (sH22 (F s1 s2) c).
Definition Inv12 (F : R -> R -> mm_state) : Prop := forall (s1 s2 : R) c,
  is_derive (fun s => sD1 (F s1 s) c) s2 (sH12 (F s1 s2) c) /\
  is_derive (fun s => sD2 (F s s2) c) s1 (sH12 (F s1 s2) c).

Lemma Inv_cell F c : Inv F -> Inv (fun s1 s2 => mm_cell6 size skew s1 s2 (F s1 s2) c).
Proof.
  intros H s1 s2 d. destruct c as [x y].
  destruct (H s1 s2 (x, y)) as (A1 & A2 & A3 & A4). destruct (H s1 s2 d) as (B1 & B2 & B3 & B4).
  unfold mm_cell6; cbn [sM sD1 sD2 sH11 sH12 sH22 fst snd].
  conjs; (eapply is_derive_eq; [dpoly|]);
    unfold addto; cbn [fst snd];
    repeat (match goal with |- context [if ?b then _ else _] => destruct b end);
    match goal with |- ?a = ?b => change (@eq R a b) end; ring.
Qed.
Lemma Inv12_cell F x y : skew x y = skew y x -> Inv F -> Inv12 F ->
  Inv12 (fun s1 s2 => mm_cell6 size skew s1 s2 (F s1 s2) (x, y)).
Proof.
  intros Hs H G s1 s2 d.
  destruct (H s1 s2 (x, y)) as (A1 & A2 & A3 & A4).
  destruct (G s1 s2 (x, y)) as (C1 & C2). destruct (G s1 s2 d) as (E1 & E2).
  unfold mm_cell6; cbn [sM sD1 sD2 sH11 sH12 sH22 fst snd]. rewrite Hs.
  conjs; (eapply is_derive_eq; [dpoly|]);
    unfold addto; cbn [fst snd];
    repeat (match goal with |- context [if ?b then _ else _] => destruct b end);
    match goal with |- ?a = ?b => change (@eq R a b) end; ring.
Qed.
Lemma Inv_ext F G : (forall s1 s2, F s1 s2 = G s1 s2) -> Inv F -> Inv G.
Proof.
  intros E H s1 s2 c. destruct (H s1 s2 c) as (A & B & C & D). rewrite <- !E.
  conjs; (eapply is_derive_ext; [|eassumption]); intros; cbn beta; now rewrite E.
Qed.
Lemma Inv_fold l F : Inv F -> Inv (fun s1 s2 => fold_left (mm_cell6 size skew s1 s2) l (F s1 s2)).
Proof.
  revert F. induction l as [|c l IH]; intros F H; cbn [fold_left]; [exact H|].
  apply (IH (fun s1 s2 => mm_cell6 size skew s1 s2 (F s1 s2) c)). now apply Inv_cell.
Qed.
Lemma Inv12_fold l F : (forall x y, skew x y = skew y x) -> Inv F -> Inv12 F ->
  Inv12 (fun s1 s2 => fold_left (mm_cell6 size skew s1 s2) l (F s1 s2)).
Proof.
  intros Hs. revert F. induction l as [|c l IH]; intros F H G; cbn [fold_left]; [exact G|].
  apply (IH (fun s1 s2 => mm_cell6 size skew s1 s2 (F s1 s2) c)); [now apply Inv_cell|].
  destruct c. now apply Inv12_cell.
Qed.
Lemma Inv_run n : Inv (fun s1 s2 => mm_run6 size skew s1 s2 n).
Proof.
  induction n as [|n IH].
  - intros s1 s2 c. cbn. conjs; apply D_const.
  - unfold mm_run6; cbn [Nat.iter nat_rect]. unfold mm_sweep6 at 1. apply Inv_fold, IH.
Qed.
Lemma Inv12_run n : (forall x y, skew x y = skew y x) -> Inv12 (fun s1 s2 => mm_run6 size skew s1 s2 n).
Proof.
  intros Hs. induction n as [|n IH].
  - intros s1 s2 c. cbn. conjs; apply D_const.
  - unfold mm_run6; cbn [Nat.iter nat_rect]. unfold mm_sweep6 at 1.
    apply Inv12_fold; [exact Hs|apply Inv_run|exact IH].
Qed.

(** eval's value is that of __call__. *)
Lemma cell6_M s1 s2 St c : sM (mm_cell6 size skew s1 s2 St c) = mm_cell size skew s1 s2 (sM St) c.
Proof. reflexivity. Qed.
Lemma fold6_M s1 s2 l St : sM (fold_left (mm_cell6 size skew s1 s2) l St) = fold_left (mm_cell size skew s1 s2) l (sM St).
Proof. revert St. induction l as [|c l IH]; intros; cbn [fold_left]; [reflexivity|]. now rewrite IH, cell6_M. Qed.
Lemma run6_M s1 s2 n : sM (mm_run6 size skew s1 s2 n) = mm_run size skew s1 s2 n.
Proof.
  induction n as [|n IH]; [reflexivity|]. unfold mm_run6, mm_run in *; cbn [Nat.iter nat_rect].
  unfold mm_sweep6 at 1. rewrite fold6_M. unfold mm_sweep at 1. now f_equal.
Qed.
End M.

Section V.
Variables (size : nat) (skew : nat -> R).
Definition VInvA (F : R -> R -> mv_arrays) : Prop := forall (s1 s2 : R) c,
  is_derive (fun s => vM (F s s2) c) s1 (vD1 (F s1 s2) c) /\
  is_derive (fun s => vM (F s1 s) c) s2 (vD2 (F s1 s2) c) /\
  is_derive (fun s => vD1 (F s s2) c) s1 (vH11 (F s1 s2) c) /\
  is_derive (fun s => vD1 (F s1 s) c) s2 (vH12 (F s1 s2) c) /\
  is_derive (fun s => vD2 (F s s2) c) s1 (vH12 (F s1 s2) c) /\
  is_derive (fun s => vD2 (F s1 s) c) s2 (vH22 (F s1 s2) c).
Definition VInvE (E : R -> R -> mv_carry) : Prop := forall (s1 s2 : R),
  is_derive (fun s => eM (E s s2)) s1 (e1 (E s1 s2)) /\
  is_derive (fun s => eM (E s1 s)) s2 (e2 (E s1 s2)) /\
  is_derive (fun s => e1 (E s s2)) s1 (e11 (E s1 s2)) /\
  is_derive (fun s => e1 (E s1 s)) s2 (e12 (E s1 s2)) /\
  is_derive (fun s => e2 (E s s2)) s1 (e12 (E s1 s2)) /\
  is_derive (fun s => e2 (E s1 s)) s2 (e22 (E s1 s2)).
Definition VInv (F : R -> R -> mv_arrays * mv_carry) : Prop :=
  VInvA (fun s1 s2 => fst (F s1 s2)) /\ VInvE (fun s1 s2 => snd (F s1 s2)).

Lemma VInv_cell F x : VInv F -> VInv (fun s1 s2 => mv_cell6 size skew s1 s2 (F s1 s2) x).
Proof.
  intros [HA HE].
  assert (Efst : forall s1 s2, mv_cell6 size skew s1 s2 (F s1 s2) x =
     mv_cell6 size skew s1 s2 (fst (F s1 s2), snd (F s1 s2)) x) by (intros; now rewrite <- surjective_pairing).
  split.
  - intros s1 s2 d.
    destruct (HA s1 s2 x) as (A1 & A2 & A3 & A4 & A5 & A6). destruct (HA s1 s2 d) as (B1 & B2 & B3 & B4 & B5 & B6).
    destruct (HE s1 s2) as (C1 & C2 & C3 & C4 & C5 & C6).
    cbn beta in *.
    conjs;
      (eapply is_derive_ext; [intros; rewrite Efst; reflexivity|]); rewrite Efst;
      unfold mv_cell6; cbn [fst vM vD1 vD2 vH11 vH12 vH22];
      (eapply is_derive_eq; [dpoly|]);
      unfold addto1;
      repeat (match goal with |- context [if ?b then _ else _] => destruct b end);
    match goal with |- ?a = ?b => change (@eq R a b) end; ring.
  - intros s1 s2.
    destruct (HA s1 s2 x) as (A1 & A2 & A3 & A4 & A5 & A6).
    cbn beta in *.
    conjs;
      (eapply is_derive_ext; [intros; rewrite Efst; reflexivity|]); rewrite Efst;
      unfold mv_cell6; cbn [snd eM e1 e2 e11 e12 e22];
      (eapply is_derive_eq; [dpoly|]); match goal with |- ?a = ?b => change (@eq R a b) end; ring.
Qed.
Lemma VInv_fold l F : VInv F -> VInv (fun s1 s2 => fold_left (mv_cell6 size skew s1 s2) l (F s1 s2)).
Proof.
  revert F. induction l as [|c l IH]; intros F H; cbn [fold_left]; [exact H|].
  apply (IH (fun s1 s2 => mv_cell6 size skew s1 s2 (F s1 s2) c)). now apply VInv_cell.
Qed.
Lemma VInv_sweep F : VInvA F -> VInvA (fun s1 s2 => mv_sweep6 size skew s1 s2 (F s1 s2)).
Proof.
  intros H.
  assert (H0 : VInv (fun s1 s2 => (F s1 s2, mv_zero_carry))).
  { split; [exact H|]. intros s1 s2. cbn. conjs; apply D_const. }
  apply (VInv_fold (seq 0 (2 * size - 1))) in H0. destruct H0 as [HA HE].
  set (G := fun s1 s2 => fold_left (mv_cell6 size skew s1 s2) (seq 0 (2 * size - 1)) (F s1 s2, mv_zero_carry)) in *.
  assert (Es : forall s1 s2, mv_sweep6 size skew s1 s2 (F s1 s2) =
    let St := fst (G s1 s2) in let E := snd (G s1 s2) in let l := (2 * size - 2)%nat in
    MV (addto1 (vM St) l (eM E)) (addto1 (vD1 St) l (e1 E)) (addto1 (vD2 St) l (e2 E))
     (addto1 (vH11 St) l (e11 E)) (addto1 (vH12 St) l (e12 E)) (addto1 (vH22 St) l (e22 E))).
  { intros. unfold mv_sweep6. fold (G s1 s2). destruct (G s1 s2). reflexivity. }
  intros s1 s2 d. destruct (HA s1 s2 d) as (B1 & B2 & B3 & B4 & B5 & B6).
  destruct (HE s1 s2) as (C1 & C2 & C3 & C4 & C5 & C6). cbn beta in *. fold (G s1 s2) in *.
  conjs;
      (eapply is_derive_ext; [intros; rewrite Es; reflexivity|]); rewrite Es;
      cbv zeta; cbn [vM vD1 vD2 vH11 vH12 vH22];
      (eapply is_derive_eq; [apply D_addto1; eassumption|]);
      unfold addto1; reflexivity.
Qed.
Lemma VInv_run n : VInvA (fun s1 s2 => mv_run6 size skew s1 s2 n).
Proof.
  induction n as [|n IH].
  - intros s1 s2 c. cbn. conjs; apply D_const.
  - unfold mv_run6; cbn [Nat.iter nat_rect]. apply VInv_sweep, IH.
Qed.
Lemma vcell6_M s1 s2 St E x : 
  (vM (fst (mv_cell6 size skew s1 s2 (St, E) x)), eM (snd (mv_cell6 size skew s1 s2 (St, E) x))) =
  mv_cell size skew s1 s2 (vM St, eM E) x.
Proof. reflexivity. Qed.
Lemma vfold6_M s1 s2 l SE :
  (vM (fst (fold_left (mv_cell6 size skew s1 s2) l SE)), eM (snd (fold_left (mv_cell6 size skew s1 s2) l SE))) =
  fold_left (mv_cell size skew s1 s2) l (vM (fst SE), eM (snd SE)).
Proof.
  revert SE. induction l as [|c l IH]; intros; cbn [fold_left]; [reflexivity|].
  rewrite IH. f_equal. destruct SE. apply vcell6_M.
Qed.
Lemma vsweep6_M s1 s2 St : vM (mv_sweep6 size skew s1 s2 St) = mv_sweep size skew s1 s2 (vM St).
Proof.
  unfold mv_sweep6, mv_sweep. pose proof (vfold6_M s1 s2 (seq 0 (2 * size - 1)) (St, mv_zero_carry)) as H.
  cbn [fst snd] in H. change (eM mv_zero_carry) with 0 in H. rewrite <- H.
  destruct (fold_left _ _ (St, _)) as [St' E']. reflexivity.
Qed.
Lemma vrun6_M s1 s2 n : vM (mv_run6 size skew s1 s2 n) = mv_run size skew s1 s2 n.
Proof.
  induction n as [|n IH]; [reflexivity|]. unfold mv_run6, mv_run in *; cbn [Nat.iter nat_rect].
  rewrite vsweep6_M. now f_equal.
Qed.
End V.

(** Memory sharing between caller arrays, Tensors and Params. *)
From Verif Require Import Prelude HeapModel HeapSpec.

Section P.
Context {V : Type} (cast : nat -> V -> V).
Notation heap := (@heap V).
Notation step := (@step V cast).
Notation run := (@run V cast).

Definition bounded (s : heap) : Prop := forall o a p, nth_error (objs s) o = Some a -> In p (adr a) -> p < nxt s.
Lemma nth_error_snoc {A} (l : list A) x i y : nth_error (l ++ [x]) i = Some y -> nth_error l i = Some y \/ (i = length l /\ y = x).
Proof.
  destruct (Nat.lt_ge_cases i (length l)) as [H|H].
  - rewrite nth_error_app1 by auto. auto.
  - rewrite nth_error_app2 by auto. destruct (i - length l) as [|[|k]] eqn:E; cbn; try discriminate. intros Q; inversion Q; subst. right. split; [lia|reflexivity].
Qed.
Lemma nth_error_upd {A} (l : list A) n x i y : nth_error (upd_nth n x l) i = Some y -> (i = n /\ y = x) \/ (i <> n /\ nth_error l i = Some y).
Proof.
  intros E. destruct (Nat.eq_dec i n) as [->|N].
  - left. split; [reflexivity|]. assert (n < length l) by (rewrite <- (upd_nth_length n x); apply nth_error_Some; congruence). rewrite nth_error_upd_nth_eq in E by auto. congruence.
  - right. split; [exact N|]. now rewrite nth_error_upd_nth_neq in E by auto.
Qed.

(** every object of the next state is an old one (same cells, flag possibly
    changed), a view of an old one, or shows fresh cells only *)
Definition descends (s s' : heap) (unlocked : Prop) : Prop :=
  nxt s <= nxt s' /\
  (forall o a, nth_error (objs s) o = Some a -> exists a', nth_error (objs s') o = Some a' /\ adr a' = adr a) /\
  forall o a', nth_error (objs s') o = Some a' ->
    (forall p, In p (adr a') -> p < nxt s') /\
    ((exists o0 a, nth_error (objs s) o0 = Some a /\ incl (adr a') (adr a) /\ (wr a' = true -> wr a = true \/ unlocked)) \/
     (forall p, In p (adr a') -> nxt s <= p)).
Lemma setwr_desc (s : heap) o a w (U : Prop) : bounded s -> nth_error (objs s) o = Some a -> (w = true -> U) -> descends s (setwr s o a w) U.
Proof.
  intros B E HU. split; [cbn; lia|]. split.
  - intros o1 a1 E1. cbn [setwr objs]. destruct (Nat.eq_dec o1 o) as [->|N].
    + rewrite nth_error_upd_nth_eq by (apply nth_error_Some; congruence). eexists; split; [reflexivity|]. cbn [adr]. congruence.
    + rewrite nth_error_upd_nth_neq by auto. eauto.
  - intros o1 a1 E1. cbn [setwr objs nxt] in *. apply nth_error_upd in E1 as [[-> ->]|[Ne E1]].
    + cbn [adr wr]. split; [intros p Hp; exact (B _ _ _ E Hp)|]. left. exists o, a. split; [exact E|]. split; [apply incl_refl|]. intros ->. auto.
    + split; [intros p Hp; exact (B _ _ _ E1 Hp)|]. left. exists o1, a1. split; [exact E1|]. split; [apply incl_refl|auto].
Qed.
Lemma same_desc (s : heap) m U : bounded s -> descends s (mkH m (nxt s) (objs s) (tens s) (pars s)) U.
Proof.
  intros B. split; [cbn; lia|]. split; [intros o a E; eauto|]. intros o a E. cbn in *. split; [intros p Hp; exact (B _ _ _ E Hp)|]. left. exists o, a. split; [exact E|]. split; [apply incl_refl|auto].
Qed.
Lemma desc_refl (s : heap) U : bounded s -> descends s s U.
Proof. intros B. destruct s. exact (same_desc _ _ U B). Qed.
Lemma alloc_desc (s : heap) vals d U : bounded s -> descends s (alloc s vals d) U.
Proof.
  intros B. split; [cbn; lia|]. split.
  - intros o a E. exists a. split; [|reflexivity]. cbn [alloc objs]. rewrite nth_error_app1; [exact E|]. apply nth_error_Some; congruence.
  - intros o a E. cbn [alloc objs nxt] in *. apply nth_error_snoc in E as [E|[-> ->]].
    + split; [intros p Hp; pose proof (B _ _ _ E Hp); lia|]. left. exists o, a. split; [exact E|]. split; [apply incl_refl|auto].
    + cbn [adr]. split; [intros p Hp; apply in_seq in Hp; lia|]. right. intros p Hp. apply in_seq in Hp. lia.
Qed.
Lemma desc_lists (s s' : heap) t p U : descends s s' U -> descends s (mkH (mem s') (nxt s') (objs s') t p) U.
Proof. intros H. exact H. Qed.
Lemma step_desc (s : heap) x : bounded s -> descends s (fst (step s x)) (exists o, x = Unlock o).
Proof.
  intros B. destruct x as [vals d|o sel|o k v|o|o|o d|o m|t|t]; cbn [HeapModel.step].
  - now apply alloc_desc.
  - destruct (nth_error (objs s) o) as [a|] eqn:E; [|now apply desc_refl]. destruct (forallb _ sel) eqn:F; [|now apply desc_refl]. cbn [fst].
    assert (I : incl (map (fun k => nth k (adr a) 0) sel) (adr a)).
    { intros p Hp. apply in_map_iff in Hp as (k & <- & Hk). rewrite forallb_forall in F. specialize (F k Hk). apply Nat.ltb_lt in F. now apply nth_In. }
    split; [cbn; lia|]. split.
    + intros o1 a1 E1. exists a1. split; [|reflexivity]. cbn [objs]. rewrite nth_error_app1; [exact E1|]. apply nth_error_Some; congruence.
    + intros o1 a1 E1. cbn [objs nxt] in *. apply nth_error_snoc in E1 as [E1|[-> ->]].
      * split; [intros p Hp; exact (B _ _ _ E1 Hp)|]. left. exists o1, a1. split; [exact E1|]. split; [apply incl_refl|auto].
      * cbn [adr wr]. split; [intros p Hp; exact (B _ _ _ E (I _ Hp))|]. left. exists o, a. auto.
  - destruct (nth_error (objs s) o) as [a|]; [|now apply desc_refl]. destruct (wr a); [|now apply desc_refl]. destruct (nth_error (adr a) k) as [p|]; [|now apply desc_refl]. now apply same_desc.
  - destruct (nth_error (objs s) o) as [a|] eqn:E; [|now apply desc_refl]. apply setwr_desc; auto. discriminate.
  - destruct (nth_error (objs s) o) as [a|] eqn:E; [|now apply desc_refl]. destruct (match base a with Some _ => _ | None => true end); [|now apply desc_refl]. apply setwr_desc; eauto.
  - destruct (nth_error (objs s) o) as [a|] eqn:E; [|now apply desc_refl]. destruct (Nat.eqb (dt a) d); cbn [fst].
    + apply desc_lists. apply setwr_desc; auto. discriminate.
    + apply desc_lists. set (vals := map _ (adr a)).
      destruct (alloc_desc s vals d (exists o0 : nat, @MkTensor V o d = Unlock o0) B) as (D1 & D2 & D3).
      assert (L : length vals = length (adr a)) by (unfold vals; apply map_length). split; [exact D1|]. split.
      * intros o1 a1 E1. cbn [setwr objs alloc]. rewrite nth_error_upd_nth_neq by (assert (o1 < length (objs s)) by (apply nth_error_Some; congruence); lia).
        destruct (D2 o1 a1 E1) as (a2 & E2 & A2). exists a2. split; [exact E2|exact A2].
      * intros o1 a1 E1. cbn [setwr objs] in E1. apply nth_error_upd in E1 as [[-> ->]|[Ne E1]]; [|exact (D3 o1 a1 E1)].
        cbn [adr nxt alloc setwr]. split; [intros p Hp; apply in_seq in Hp; lia|]. right. intros p Hp. apply in_seq in Hp. lia.
  - destruct (nth_error (objs s) o) as [a|] eqn:E; [|now apply desc_refl]. destruct (nth_error (objs s) m) as [b|]; [|now apply desc_refl].
    destruct (Nat.eqb _ _); [|now apply desc_refl]. cbn [fst]. apply desc_lists. apply setwr_desc; auto. discriminate.
  - now apply desc_refl. - now apply desc_refl.
Qed.
Lemma step_bounded (s : heap) x : bounded s -> bounded (fst (step s x)).
Proof. intros B o a p E Hp. destruct (step_desc s x B) as (_ & _ & D). exact (proj1 (D o a E) p Hp). Qed.
Lemma run_bounded h : forall s : heap, bounded s -> bounded (run s h).
Proof. induction h as [|x h IH]; intros s B; cbn; auto. apply IH. now apply step_bounded. Qed.
Lemma reachable_bounded (s : heap) : reachable cast s -> bounded s.
Proof. intros (m & h & ->). apply run_bounded. intros [|o] a p E; discriminate. Qed.

(** ---- memory changes ---- *)
Lemma step_mem (s : heap) x p : p < nxt s -> mem (fst (step s x)) p <> mem s p ->
  exists o k v a, x = Write o k v /\ nth_error (objs s) o = Some a /\ wr a = true /\ In p (adr a).
Proof.
  intros Hp. destruct x as [vals d|o sel|o k v|o|o|o d|o m|t|t]; cbn [HeapModel.step].
  - intros N. exfalso. apply N. cbn. unfold store. destruct (Nat.leb_spec (nxt s) p); [lia|reflexivity].
  - destruct (nth_error (objs s) o); [destruct (forallb _ sel)|]; intros N; exfalso; apply N; reflexivity.
  - destruct (nth_error (objs s) o) as [a|] eqn:E; [|intros N; exfalso; now apply N]. destruct (wr a) eqn:W; [|intros N; exfalso; now apply N].
    destruct (nth_error (adr a) k) as [q|] eqn:K; [|intros N; exfalso; now apply N]. cbn. unfold put. destruct (Nat.eqb_spec p q) as [->|]; [|intros N; exfalso; now apply N].
    intros _. exists o, k, v, a. repeat split; auto. now apply nth_error_In in K.
  - destruct (nth_error (objs s) o); intros N; exfalso; apply N; reflexivity.
  - destruct (nth_error (objs s) o) as [a|]; [destruct (match base a with Some _ => _ | None => true end)|]; intros N; exfalso; apply N; reflexivity.
  - destruct (nth_error (objs s) o) as [a|]; [destruct (Nat.eqb (dt a) d)|]; intros N; exfalso; apply N; try reflexivity.
    cbn. unfold store. destruct (Nat.leb_spec (nxt s) p); [lia|reflexivity].
  - destruct (nth_error (objs s) o) as [a|]; [destruct (nth_error (objs s) m) as [b|]; [destruct (Nat.eqb _ _)|]|]; intros N; exfalso; apply N; reflexivity.
  - intros N; exfalso; now apply N. - intros N; exfalso; now apply N.
Qed.
Lemma read_same (s s' : heap) o a a' : nth_error (objs s) o = Some a -> nth_error (objs s') o = Some a' -> adr a' = adr a ->
  (forall p, In p (adr a) -> mem s' p = mem s p) -> read s' o = read s o.
Proof. intros E E' A M. unfold read. rewrite E, E', A. apply map_ext_in. auto. Qed.
(** only a write through a writable object showing one of its cells changes an array *)
Theorem change_is_write (s : heap) x o a : bounded s -> nth_error (objs s) o = Some a -> read (fst (step s x)) o <> read s o ->
  exists o' k v a', x = Write o' k v /\ nth_error (objs s) o' = Some a' /\ wr a' = true /\ overlap a a'.
Proof.
  intros B E N. destruct (step_desc s x B) as (_ & D & _). destruct (D o a E) as (a1 & E1 & A1).
  destruct x as [vals d|o' sel|o' k v|o'|o'|o' d|o' m|t|t].
  all: try (match goal with |- exists o1 k1 v1 a1, Write _ _ _ = _ /\ _ => fail 1 | _ => exfalso; apply N; apply (read_same _ _ _ _ _ E E1 A1); intros p Hp end).
  - cbn. unfold store. destruct (Nat.leb_spec (nxt s) p); [pose proof (B _ _ _ E Hp); lia|reflexivity].
  - cbn. destruct (nth_error (objs s) o') as [b|]; [destruct (forallb _ sel)|]; reflexivity.
  - cbn [HeapModel.step] in *. destruct (nth_error (objs s) o') as [b|] eqn:Eb; [|now elim N]. destruct (wr b) eqn:W; [|now elim N]. destruct (nth_error (adr b) k) as [q|] eqn:K; [|now elim N].
    destruct (in_dec Nat.eq_dec q (adr a)) as [Hq|Hq].
    + exists o', k, v, b. repeat split; auto. exists q. split; [exact Hq|now apply nth_error_In in K].
    + exfalso. apply N. apply (read_same _ _ _ _ _ E E1 A1). intros p Hp. cbn. unfold put. destruct (Nat.eqb_spec p q) as [->|]; [contradiction|reflexivity].
  - cbn. destruct (nth_error (objs s) o'); reflexivity.
  - cbn. destruct (nth_error (objs s) o') as [b|]; [destruct (match base b with Some _ => _ | None => true end)|]; reflexivity.
  - cbn. destruct (nth_error (objs s) o') as [b|]; [destruct (Nat.eqb (dt b) d)|]; try reflexivity. cbn. unfold store. destruct (Nat.leb_spec (nxt s) p); [pose proof (B _ _ _ E Hp); lia|reflexivity].
  - cbn. destruct (nth_error (objs s) o') as [b|]; [destruct (nth_error (objs s) m) as [c|]; [destruct (Nat.eqb _ _)|]|]; reflexivity.
  - reflexivity. - reflexivity.
Qed.
(** ---- frozen arrays stay as they are ---- *)
Lemma step_frozen (s : heap) x o : bounded s -> frozen s o -> (forall u, x <> Unlock u) ->
  frozen (fst (step s x)) o /\ read (fst (step s x)) o = read s o.
Proof.
  intros B (a & E & F) NU. destruct (step_desc s x B) as (_ & D2 & D3). destruct (D2 o a E) as (a1 & E1 & A1). split.
  - exists a1. split; [exact E1|]. intros o2 a2 E2 (p & P1 & P2). rewrite A1 in P1. destruct (D3 o2 a2 E2) as (_ & [(o0 & a0 & E0 & I & W)|Fr]).
    + destruct (wr a2) eqn:W2; [|reflexivity]. destruct (W eq_refl) as [W0|(u & U)]; [|now apply NU in U]. rewrite (F o0 a0 E0) in W0; [discriminate|]. exists p. auto.
    + pose proof (Fr p P2). pose proof (B _ _ _ E P1). lia.
  - apply (read_same _ _ _ _ _ E E1 A1). intros p Hp.
    destruct x as [vals d|o' sel|o' k v|o'|o'|o' d|o' m|t|t]; cbn [HeapModel.step].
    + cbn. unfold store. destruct (Nat.leb_spec (nxt s) p); [pose proof (B _ _ _ E Hp); lia|reflexivity].
    + destruct (nth_error (objs s) o') as [b|]; [destruct (forallb _ sel)|]; reflexivity.
    + destruct (nth_error (objs s) o') as [b|] eqn:Eb; [|reflexivity]. destruct (wr b) eqn:W; [|reflexivity]. destruct (nth_error (adr b) k) as [q|] eqn:K; [|reflexivity].
      cbn. unfold put. destruct (Nat.eqb_spec p q) as [->|]; [|reflexivity]. rewrite (F o' b Eb) in W; [discriminate|]. exists q. split; [exact Hp|now apply nth_error_In in K].
    + destruct (nth_error (objs s) o'); reflexivity.
    + now elim (NU o').
    + destruct (nth_error (objs s) o') as [b|]; [destruct (Nat.eqb (dt b) d)|]; try reflexivity. cbn. unfold store. destruct (Nat.leb_spec (nxt s) p); [pose proof (B _ _ _ E Hp); lia|reflexivity].
    + destruct (nth_error (objs s) o') as [b|]; [destruct (nth_error (objs s) m) as [c|]; [destruct (Nat.eqb _ _)|]|]; reflexivity.
    + reflexivity. + reflexivity.
Qed.
Theorem run_frozen h : forall (s : heap) o, bounded s -> frozen s o -> no_unlock h -> frozen (run s h) o /\ read (run s h) o = read s o.
Proof.
  induction h as [|x h IH]; intros s o B F NU; [auto|]. destruct (step_frozen s x o B F) as [F1 R1]. { intros u ->. apply (NU u). now left. }
  cbn [HeapModel.run fold_left]. destruct (IH (fst (step s x)) o (step_bounded s x B) F1) as [F2 R2]. { intros u Hu. apply (NU u). now right. }
  split; [exact F2|]. unfold HeapModel.run in *. congruence.
Qed.
(** ---- constructors ---- *)
Theorem tensor_same (s : heap) o a d : nth_error (objs s) o = Some a -> dt a = d ->
  outcome cast s (MkTensor o d) = Ok tt /\ let s' := fst (step s (MkTensor o d)) in
  tens s' = tens s ++ [o] /\ read s' o = read s o /\ (forall k v, outcome cast s' (Write o k v) = Raise ValueError) /\ (sole s o -> frozen s' o).
Proof.
  intros E Ed. unfold outcome. cbn [HeapModel.step]. rewrite E, Ed, Nat.eqb_refl. cbn [snd fst]. split; [reflexivity|]. cbv zeta. cbn [tens setwr mem nxt objs].
  assert (L : o < length (objs s)) by (apply nth_error_Some; congruence). split; [reflexivity|]. split.
  - unfold read. cbn [objs mem]. rewrite nth_error_upd_nth_eq by auto. now rewrite E.
  - split.
    + intros k v. cbn [objs]. rewrite nth_error_upd_nth_eq by auto. reflexivity.
    + intros S. exists (mkO (adr a) false (dt a) (base a)). cbn [objs]. split; [now apply nth_error_upd_nth_eq|].
      intros o' a' E' Ov. apply nth_error_upd in E' as [[-> ->]|[Ne E']]; [reflexivity|]. exact (S a o' a' E E' Ne Ov).
Qed.
(** another dtype: the tensor has its own memory, the caller's array is untouched *)
Theorem tensor_copied (s : heap) o a d : bounded s -> nth_error (objs s) o = Some a -> dt a <> d ->
  outcome cast s (MkTensor o d) = Ok tt /\ let s' := fst (step s (MkTensor o d)) in let n := length (objs s) in
  tens s' = tens s ++ [n] /\ read s' n = map (cast d) (read s o) /\ read s' o = read s o /\ nth_error (objs s') o = Some a /\ frozen s' n.
Proof.
  intros B E Ed. assert (L : o < length (objs s)) by (apply nth_error_Some; congruence). unfold outcome. cbn [HeapModel.step]. rewrite E.
  destruct (Nat.eqb_spec (dt a) d); [contradiction|]. cbn [snd fst]. split; [reflexivity|]. cbv zeta. cbn [tens setwr mem nxt objs alloc].
  set (vals := map _ (adr a)). assert (Lv : length vals = length (adr a)) by (unfold vals; apply map_length).
  set (new := mkO _ false _ _). 
  assert (On : nth_error (upd_nth (length (objs s)) new (objs s ++ [mkO (seq (nxt s) (length vals)) true d None])) (length (objs s)) = Some new)
    by (apply nth_error_upd_nth_eq; rewrite app_length; cbn; lia).
  assert (Oo : forall i b, i < length (objs s) -> nth_error (objs s) i = Some b -> nth_error (upd_nth (length (objs s)) new (objs s ++ [mkO (seq (nxt s) (length vals)) true d None])) i = Some b)
    by (intros i b Hi Hb; rewrite nth_error_upd_nth_neq by lia; now rewrite nth_error_app1).
  split; [reflexivity|]. split; [|split; [|split]].
  - unfold read. cbn [objs mem]. rewrite On, E. cbn [new adr]. unfold vals at 1. rewrite map_map. apply nth_ext with (d := mem s 0) (d' := mem s 0); [now rewrite !map_length, seq_length|].
    rewrite map_length, seq_length. intros k Hk. rewrite (nth_indep _ _ (store (mem s) (nxt s) vals 0)) by (now rewrite map_length, seq_length). rewrite (map_nth (store (mem s) (nxt s) vals)).
    rewrite seq_nth by auto. unfold store. destruct (Nat.leb_spec (nxt s) (nxt s + k)); [|lia]. replace (nxt s + k - nxt s) with k by lia. fold vals.
    apply nth_indep. lia.
  - unfold read. cbn [objs mem]. rewrite (Oo o a L E), E. apply map_ext_in. intros p Hp. unfold store. destruct (Nat.leb_spec (nxt s) p); [pose proof (B _ _ _ E Hp); lia|reflexivity].
  - exact (Oo o a L E).
  - exists new. split; [exact On|]. intros o' a' E' (p & P1 & P2). cbn [objs] in E'. apply nth_error_upd in E' as [[-> ->]|[Ne E']]; [reflexivity|].
    apply nth_error_snoc in E' as [E'|[-> _]]; [|congruence]. cbn [new adr] in P1. apply in_seq in P1. pose proof (B _ _ _ E' P2). lia.
Qed.
(** Param: the values array is locked and kept; the mask array stays as writable as it was *)
Theorem param_made (s : heap) o m a b : nth_error (objs s) o = Some a -> nth_error (objs s) m = Some b -> length (adr a) = length (adr b) -> o <> m ->
  outcome cast s (MkParam o m) = Ok tt /\ let s' := fst (step s (MkParam o m)) in
  pars s' = pars s ++ [(o, m)] /\ read s' o = read s o /\ (forall k v, outcome cast s' (Write o k v) = Raise ValueError) /\ (sole s o -> frozen s' o) /\
  nth_error (objs s') m = Some b.
Proof.
  intros E Em Ll N. unfold outcome. cbn [HeapModel.step]. rewrite E, Em, Ll, Nat.eqb_refl. cbn [snd fst]. split; [reflexivity|]. cbv zeta. cbn [pars setwr mem nxt objs].
  assert (L : o < length (objs s)) by (apply nth_error_Some; congruence). split; [reflexivity|]. split.
  - unfold read. cbn [objs mem]. rewrite nth_error_upd_nth_eq by auto. now rewrite E.
  - split.
    + intros k v. cbn [objs]. rewrite nth_error_upd_nth_eq by auto. reflexivity.
    + split; [|cbn [objs]; now rewrite nth_error_upd_nth_neq by auto].
      intros S. exists (mkO (adr a) false (dt a) (base a)). cbn [objs]. split; [now apply nth_error_upd_nth_eq|].
      intros o' a' E' Ov. apply nth_error_upd in E' as [[-> ->]|[Ne E']]; [reflexivity|]. exact (S a o' a' E E' Ne Ov).
Qed.
End P.

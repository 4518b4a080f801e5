(** Product.add, and the top-level statements about operators, Sum.add and
    Product.add. *)
From Verif Require Import Prelude DenseModel FuncModel AnalyticSpec FuncSpec DenseProofs FuncLemmas FuncAffine FuncSum FuncWrapP FuncCompose FuncProduct FlattenModel FlattenSpec FlattenProofs FlattenSum FlattenAdd.
From Coquelicot Require Import Coquelicot.
From Coq Require Import Reals Lra.
Import List ListNotations.
Open Scope R_scope.

(** The function as the atom of a Sum or Product sees it. *)
Definition reindexed (nf nd : nat) (m : maps) (foo : fexpr) : fexpr := ELeaf (s_wrap (mkw nf nd m) (den foo)).

(** *** second order jets *)
Notation jet := (R * R * R * R)%type (only parsing).
Definition jmul (a b : jet) : jet :=
  let '(v, g, g', h) := a in let '(w, k, k', l) := b in
  (v * w, g * w + v * k, g' * w + v * k', h * w + g * k' + g' * k + v * l).
Definition jone : jet := (1, 0, 0, 0).
Definition jprod (l : list jet) : jet := fold_right jmul jone l.
Lemma jmul_assoc a b c : jmul a (jmul b c) = jmul (jmul a b) c.
Proof. destruct a as [[[? ?] ?] ?], b as [[[? ?] ?] ?], c as [[[? ?] ?] ?]. cbn. repeat (f_equal; [|ring]). ring. Qed.
Lemma jmul_1_l a : jmul jone a = a.
Proof. destruct a as [[[? ?] ?] ?]. cbn. repeat (f_equal; [|ring]). ring. Qed.
Lemma jmul_1_r a : jmul a jone = a.
Proof. destruct a as [[[? ?] ?] ?]. cbn. repeat (f_equal; [|ring]). ring. Qed.
Lemma jprod_app l l' : jprod (l ++ l') = jmul (jprod l) (jprod l').
Proof. induction l as [|a l IH]; cbn [app]; [now rewrite jmul_1_l|]. cbn [jprod fold_right] in *. unfold jprod in *. cbn. rewrite IH. apply jmul_assoc. Qed.
Lemma LJ V Gx Gy H m : (Rprod V (seq 0 m), LG V Gx m, LG V Gy m, LH V Gx Gy H m) =
  jprod (map (fun k => (V k, Gx k, Gy k, H k)) (seq 0 m)).
Proof.
  induction m as [|m IH]; [reflexivity|]. rewrite LG_S, LG_S, LH_S. rewrite (seq_S m). cbn [Nat.add].
  rewrite map_app, jprod_app, <- IH, Rprod_app, Rprod_cons. unfold Rprod at 2. cbn [map fold_right jprod]. rewrite jmul_1_r. cbn [jmul].
  repeat (f_equal; [|ring]). ring.
Qed.
Lemma map_seq_nth {A B} (F : A -> B) (l : list A) d : map (fun k => F (nth k l d)) (seq 0 (length l)) = map F l.
Proof.
  apply nth_ext with (d := F d) (d' := F d); [now rewrite !map_length, seq_length|]. intros k Hk. rewrite map_length, seq_length in Hk.
  rewrite nth_map_seq by auto. now rewrite map_nth.
Qed.

Definition jrd (f : sfun) ps i j x y n d : jet :=
  (rd f ps MCall [] [] n d, rd f ps (MGrad i) x [] n d, rd f ps (MGrad j) y [] n d, rd f ps (MHess i j) x y n d).

(** a Product's jet is the product of its atoms' jets *)
Lemma product_jet ss atoms ps i j x y n d : Forall (fun f => exists o, okf ss o f) atoms -> atoms <> [] ->
  has_sts ps ss -> (i < length ss)%nat -> (j < length ss)%nat ->
  jrd (s_product atoms) ps i j x y n d = jprod (map (fun f => jrd f ps i j x y n d) atoms).
Proof.
  intros A Hne H Hi Hj. destruct (product_ask ss atoms A ps Hne H) as ((v & E1 & Q1) & G & K).
  destruct (G i Hi) as (g & E2 & Q2), (G j Hj) as (g' & E3 & Q3), (K i j Hi Hj) as (h & E4 & Q4).
  rewrite <- (map_seq_nth (fun f => jrd f ps i j x y n d) atoms fnull). unfold jrd at 2.
  change (fun k => (rd (nth k atoms fnull) ps MCall [] [] n d, rd (nth k atoms fnull) ps (MGrad i) x [] n d,
     rd (nth k atoms fnull) ps (MGrad j) y [] n d, rd (nth k atoms fnull) ps (MHess i j) x y n d))
   with (fun k => (Vv atoms ps n d k, Gv atoms ps i x n d k, Gv atoms ps j y n d k, Hv atoms ps i j x y n d k)).
  rewrite <- (LJ (Vv atoms ps n d) (Gv atoms ps i x n d) (Gv atoms ps j y n d) (Hv atoms ps i j x y n d)).
  unfold jrd, rd; cbn [ask]. rewrite E1, E2, E3, E4. cbn [val]. now rewrite Q1, Q2, Q3, Q4.
Qed.

Lemma LG_zero V m : LG V (fun _ => 0) m = 0.
Proof. unfold LG. apply Rsum_zero; intros; ring. Qed.
Lemma LH_zero_x V Gy m : LH V (fun _ => 0) Gy (fun _ => 0) m = 0.
Proof. unfold LH. apply Rsum_zero; intros. rewrite Rsum_zero; [ring|]. intros; ring. Qed.
Lemma LH_zero_y V Gx m : LH V Gx (fun _ => 0) (fun _ => 0) m = 0.
Proof. unfold LH. apply Rsum_zero; intros. rewrite Rsum_zero; [ring|]. intros; ring. Qed.

Section WrapProduct.
Context (ss : list pst) (nf nd : nat) (m : maps) (o : pst) (atoms : list sfun).
Hypothesis M : maps_ok ss nf nd m o.
Hypothesis A : Forall (fun f => exists o, okf (sel ss (m_pm m)) o f) atoms.
Hypothesis O : okf (sel ss (m_pm m)) o (s_product atoms).
Hypothesis Hne : atoms <> [].
(** an inner atom seen through the outer maps *)
Definition jin (f : sfun) ps i j x y n d : jet :=
  let go mm x y := match mmap (m_pm m) mm with
     | Some m' => rd f (wsub (m_pm m) ps) m' x y (pull (m_fm m) n) (pull (m_dm m) d) | None => 0 end in
  (go MCall [] [], go (MGrad i) x [], go (MGrad j) y [], go (MHess i j) x y).
Lemma wrap_product_jet ps i j x y n d : has_sts ps ss -> (i < length ss)%nat -> (j < length ss)%nat ->
  jrd (s_wrap (mkw nf nd m) (s_product atoms)) ps i j x y n d = jprod (map (fun f => jin f ps i j x y n d) atoms).
Proof.
  intros H Hi Hj. pose proof M as (N1 & B1 & W1). pose proof (wsub_sts ss _ ps B1 H) as Hs.
  destruct (product_ask (sel ss (m_pm m)) atoms A (wsub (m_pm m) ps) Hne Hs) as ((v & E1 & Q1) & G & K).
  rewrite <- (map_seq_nth (fun f => jin f ps i j x y n d) atoms fnull). unfold jin.
  set (n' := pull (m_fm m) n). set (d' := pull (m_dm m) d). set (qs := wsub (m_pm m) ps) in *.
  cbv zeta.
  rewrite <- (LJ (fun k => rd (nth k atoms fnull) qs MCall [] [] n' d')
     (fun k => match mmap (m_pm m) (MGrad i) with Some m' => rd (nth k atoms fnull) qs m' x [] n' d' | None => 0 end)
     (fun k => match mmap (m_pm m) (MGrad j) with Some m' => rd (nth k atoms fnull) qs m' y [] n' d' | None => 0 end)
     (fun k => match mmap (m_pm m) (MHess i j) with Some m' => rd (nth k atoms fnull) qs m' x y n' d' | None => 0 end)).
  unfold jrd. rewrite !(wrap_rd ss nf nd m o (s_product atoms) ps) by (auto; cbn; auto). fold n' d' qs.
  cbn [mmap].
  assert (GR : forall i0 (x0 : list nat), match option_map MGrad (index_of i0 (m_pm m)) with Some m' => rd (s_product atoms) qs m' x0 [] n' d' | None => 0 end
     = LG (fun k => rd (nth k atoms fnull) qs MCall [] [] n' d')
        (fun k => match option_map MGrad (index_of i0 (m_pm m)) with Some m' => rd (nth k atoms fnull) qs m' x0 [] n' d' | None => 0 end) (length atoms)).
  { intros i0 x0. destruct (index_of i0 (m_pm m)) as [k|] eqn:E; cbn [option_map]; [|now rewrite LG_zero].
    apply index_of_lt in E as [E _]. destruct (G k) as (g & E2 & Q2); [now rewrite sel_length|]. unfold rd at 1; cbn [ask]. rewrite E2. cbn [val]. now rewrite Q2. }
  rewrite !GR. f_equal; [f_equal; f_equal|].
  - unfold rd at 1; cbn [ask]. rewrite E1. cbn [val]. now rewrite Q1.
  - destruct (index_of i (m_pm m)) as [k|] eqn:E; cbn [option_map]; [|now rewrite LH_zero_x].
    destruct (index_of j (m_pm m)) as [l|] eqn:E'; cbn [option_map]; [|now rewrite LH_zero_y].
    apply index_of_lt in E as [E _], E' as [E' _].
    destruct (K k l) as (h & E4 & Q4); [now rewrite sel_length|now rewrite sel_length|]. unfold rd at 1; cbn [ask]. rewrite E4. cbn [val]. now rewrite Q4.
Qed.
End WrapProduct.

(** *** Product.add *)
Definition patom_good (ss : list pst) (nf nd : nat) (a : maps * fexpr) : Prop :=
  exists o, maps_ok ss nf nd (fst a) o /\ okf (sel ss (m_pm (fst a))) o (den (snd a)).
Definition pjet nf nd (a : maps * fexpr) ps i j x y n d : jet :=
  jrd (s_wrap (mkw nf nd (fst a)) (den (snd a))) ps i j x y n d.
Definition pflat_spec ss nf nd (foo : fexpr) m (A : list (maps * fexpr)) : Prop :=
  Forall (patom_good ss nf nd) A /\ A <> [] /\
  forall ps i j x y n d, has_sts ps ss -> (i < length ss)%nat -> (j < length ss)%nat ->
    jrd (s_wrap (mkw nf nd m) (den foo)) ps i j x y n d = jprod (map (fun a => pjet nf nd a ps i j x y n d) A).

Section PGo.
Variable m : maps.
Fixpoint prod_go (l : list (maps * fexpr)) (P : prodobj) : res prodobj :=
  match l with
  | [] => Ok P
  | (mk, e) :: r =>
      let! pm := imap (m_pm mk) (m_pm m) in
      let! fm := imap (m_fm mk) (m_fm m) in
      let! dm := imap (m_dm mk) (m_dm m) in
      let! P' := prod_add e P (mkM pm fm dm) in
      prod_go r P'
  end.
End PGo.
Lemma prod_add_prod nf nd atoms P m : prod_add (EProduct nf nd atoms) P m = prod_go m atoms P.
Proof. reflexivity. Qed.
Lemma p_typed_len nf nd ss atoms os out m e o : p_typed nf nd ss atoms os ->
  broadcastable (map (fun '((m, _), o) => m_out nf nd m o) (combine atoms os)) ->
  out = join (map (fun '((m, _), o) => m_out nf nd m o) (combine atoms os)) ->
  In (m, e) atoms -> In (m_out nf nd m o) (map (fun '((m, _), o) => m_out nf nd m o) (combine atoms os)) ->
  length (fst out) = nf /\ length (snd out) = nd.
Proof.
  intros T Bc -> Hi Io. unfold broadcastable in Bc. rewrite Forall_forall in Bc. destruct (Bc _ Io) as [B1 B2].
  apply ax_le_length in B1, B2. rewrite <- B1, <- B2. unfold m_out, w_out. cbn [fst snd w_nf w_nd mkw]. now rewrite !expand_shape_length.
Qed.

Lemma prod_flat : forall foo ss m o P, typed foo (sel ss (m_pm m)) o -> maps_ok ss (p_nf P) (p_nd P) m o ->
  exists A, prod_add foo P m = Ok (mkProd (p_nf P) (p_nd P) (p_atoms P ++ A)) /\
    pflat_spec ss (p_nf P) (p_nd P) foo m A.
Proof.
  assert (LEAF : forall foo ss m o P, okf (sel ss (m_pm m)) o (den foo) -> maps_ok ss (p_nf P) (p_nd P) m o ->
    exists A, Ok (mkProd (p_nf P) (p_nd P) (p_atoms P ++ ((m, foo) :: nil))) =
      Ok (mkProd (p_nf P) (p_nd P) (p_atoms P ++ A)) /\ pflat_spec ss (p_nf P) (p_nd P) foo m A).
  { intros foo ss m o P O M. exists ((m, foo) :: nil). split; [auto|]. split; [|split].
    - constructor; auto. exists o. auto.
    - discriminate.
    - intros. unfold jprod. cbn [map fold_right]. rewrite jmul_1_r. reflexivity. }
  induction foo as [f|e a b IH|nf nd b atoms IH|nf nd atoms IH] using fexpr_ind'; intros ss m o P T M;
    try (cbn [prod_add]; apply (LEAF _ ss m o); auto; now apply typed_okf).
  pose proof T as T0. apply typed_product in T as (os & Hne & T & Bc & Eo). rewrite prod_add_prod.
  assert (GO : forall l P1, (forall x, In x l -> In x atoms) -> p_nf P1 = p_nf P -> p_nd P1 = p_nd P ->
    exists A, prod_go m l P1 = Ok (mkProd (p_nf P) (p_nd P) (p_atoms P1 ++ A)) /\
      Forall (patom_good ss (p_nf P) (p_nd P)) A /\ (l <> [] -> A <> []) /\
      forall ps i j x y n d, has_sts ps ss -> (i < length ss)%nat -> (j < length ss)%nat ->
        jprod (map (fun a => jin m (s_wrap (mkw nf nd (fst a)) (den (snd a))) ps i j x y n d) l) =
        jprod (map (fun a => pjet (p_nf P) (p_nd P) a ps i j x y n d) A)).
  { induction l as [|[mk e] l IHl]; intros P1 Hl E1 E2.
    - exists []. cbn [prod_go]. split; [rewrite app_nil_r, <- E1, <- E2; destruct P1; reflexivity|]. split; auto.
    - assert (Hi : In (mk, e) atoms) by (apply Hl; cbn; auto).
      destruct (p_typed_in _ _ _ _ _ _ _ T Hi) as (ok & Mk & Te & Io).
      destruct (p_typed_len _ _ _ _ _ _ _ _ ok T Bc Eo Hi Io) as [L1 L2].
      destruct (comp_bounds _ _ _ _ _ _ _ _ _ M Mk L1 L2) as (P1' & P2 & P3).
      pose proof (comp_ok _ _ _ _ _ _ _ _ _ M Mk L1 L2) as CM.
      pose proof (comp_sel _ _ _ _ _ _ _ _ _ M Mk L1 L2) as CS.
      rewrite Forall_forall in IH.
      destruct (IH (mk, e) Hi ss (mcomp m mk) ok P1) as (A1 & R1 & G1 & G0 & G2).
      { cbn [snd]. now rewrite CS. } { now rewrite E1, E2. }
      destruct (IHl (mkProd (p_nf P1) (p_nd P1) (p_atoms P1 ++ A1))) as (A2 & R2 & K1 & K0 & K2); auto.
      { intros; apply Hl; cbn; auto. }
      exists (A1 ++ A2). cbn [prod_go]. rewrite !imap_pick by auto. cbn [rbind].
      cbn [snd] in R1. unfold mcomp in R1. rewrite R1. cbn [rbind]. rewrite R2. cbn [p_atoms]. rewrite E1, E2 in *.
      split; [now rewrite app_assoc|]. split; [now apply Forall_app|].
      split; [intros _ C; apply app_eq_nil in C as [C _]; contradiction|].
      intros ps i j x y n d H Hii Hjj. rewrite map_app, jprod_app, <- K2, <- G2 by auto.
      cbn [map]. unfold jprod at 1. cbn [fold_right]. fold (jprod (map (fun a => jin m (s_wrap (mkw nf nd (fst a)) (den (snd a))) ps i j x y n d) l)).
      f_equal. cbn [fst snd]. unfold jrd. rewrite !(comp_rd _ _ _ _ _ _ _ _ _ M Mk L1 L2) by first [assumption | now apply typed_okf | exact I | (cbn; auto)]. reflexivity. }
  destruct (GO atoms P) as (A & E & G1 & G0 & G2); auto.
  exists A. rewrite E. split; auto. split; auto. split; auto.
  intros ps i j x y n d H Hii Hjj. rewrite <- G2 by auto. cbn [den].
  rewrite (wrap_product_jet ss (p_nf P) (p_nd P) m o); auto.
  - rewrite map_map. f_equal. apply map_ext. intros [mk e]. reflexivity.
  - apply Forall_map, Forall_forall. intros [mk e] Hi. destruct (p_typed_in _ _ _ _ _ _ _ T Hi) as (ok & Mk & Te & Io).
    eexists. apply wrap_okf; eauto. now apply typed_okf.
  - now apply (typed_okf (EProduct nf nd atoms)).
  - intros C. apply map_eq_nil in C. contradiction.
Qed.

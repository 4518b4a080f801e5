(** Proofs about the constructors: reading the methods of nested objects. *)
From Verif Require Import Prelude DenseModel FuncModel AnalyticSpec FuncSpec DenseProofs FuncLemmas FuncAffine FuncSum FuncWrapP FuncCompose FuncProduct FlattenModel FlattenSpec.
From Coquelicot Require Import Coquelicot.
From Coq Require Import Reals Lra.
Import List ListNotations.
Open Scope R_scope.

(** The three methods, uniformly. *)
Inductive meth := MCall | MGrad (i : nat) | MHess (i j : nat).
Definition ask (f : sfun) (ps : list dt) (m : meth) : res dt :=
  match m with MCall => f_call f ps | MGrad i => f_grad f ps i | MHess i j => f_hess f ps i j end.
Definition m_lt (n : nat) (m : meth) : Prop :=
  match m with MCall => True | MGrad i => (i < n)%nat | MHess i j => (i < n)%nat /\ (j < n)%nat end.
Definition iscall (m : meth) : R := match m with MCall => 1 | _ => 0 end.
Definition axes (m : meth) (t : dt) : Prop :=
  match m with MCall => xs t = [] /\ ys t = [] | MGrad _ => ys t = [] | MHess _ _ => True end.
Definition rd f ps m x y n d : R := get (val (ask f ps m)) x y n d.

(** all that flattening needs to know about a function *)
Record okf (ss : list pst) (out : pst) (f : sfun) : Prop := mkOkf {
  ok_ask : forall ps m, has_sts ps ss -> m_lt (length ss) m ->
    exists t, ask f ps m = Ok t /\ ax_sub (ns t) (fst out) /\ ax_sub (ds t) (snd out) /\ axes m t;
  ok_ng : f_nullg f = true -> forall ps i, has_sts ps ss -> isnil (val (f_grad f ps i));
  ok_nh : f_nullh f = true -> forall ps i j, has_sts ps ss -> isnil (val (f_hess f ps i j)) }.

Lemma okf_val ss out f ps m : okf ss out f -> has_sts ps ss -> m_lt (length ss) m ->
  ask f ps m = Ok (val (ask f ps m)) /\ ax_sub (ns (val (ask f ps m))) (fst out) /\
  ax_sub (ds (val (ask f ps m))) (snd out) /\ axes m (val (ask f ps m)).
Proof. intros O H Hm. destruct (ok_ask _ _ _ O ps m H Hm) as (t & E & ?). rewrite E. auto. Qed.

Lemma okf_wf ss out f : wellformed ss out f -> hess_both ss out f -> okf ss out f.
Proof.
  intros W B. constructor; [|apply W|apply W].
  intros ps [|i|i j] H Hm; cbn [ask m_lt axes] in *.
  - destruct (wf_call _ _ _ W ps H) as (v & E & (E1 & E2 & E3 & E4)). exists v. rewrite E3, E4. auto using ax_sub_refl.
  - destruct (wf_grad _ _ _ W ps i H Hm) as (v & E & (E1 & E2 & E3 & E4 & _)). exists v.
    split; [auto|]. split; [auto|]. split; [auto|]. destruct E2; auto.
  - destruct Hm as [Hi Hj]. destruct (le_lt_dec j i) as [L|L].
    + destruct (wf_hess _ _ _ W ps i j H Hi L) as (v & E & (E1 & E2 & E3 & E4 & _)). exists v. auto.
    + destruct (B ps i j H L Hj) as (v & E & (E1 & E2 & E3 & E4 & _) & _). exists v. auto.
Qed.

(** *** Affine *)
Lemma affine_ask ss out f a b ps m : okf ss out f -> has_sts ps ss -> m_lt (length ss) m ->
  exists t, ask (s_affine f a b) ps m = Ok t /\ ax_sub (ns t) (fst out) /\ ax_sub (ds t) (snd out) /\ axes m t /\
    forall x y n d, get t x y n d = a * rd f ps m x y n d + iscall m * b.
Proof.
  intros O H Hm. destruct (ok_ask _ _ _ O ps m H Hm) as (t & E & A1 & A2 & A3).
  assert (Z : forall k, m = k -> rd f ps k = get t) by (intros k <-; unfold rd; now rewrite E).
  destruct m as [|i|i j]; cbn [ask s_affine f_call f_grad f_hess] in *.
  - rewrite E. cbn [rbind]. eexists; split; [reflexivity|]. split; [auto|]. split; [auto|]. split; [auto|].
    intros. unfold dshift. rewrite get_dmap, get_dscal, Z by auto. cbn [iscall]. ring.
  - destruct (f_nullg f) eqn:N.
    + exists dzero. split; [auto|]. split; [left; auto|]. split; [left; auto|]. split; [reflexivity|].
      intros. rewrite get_zero. unfold rd; cbn [ask]. rewrite (ok_ng _ _ _ O N ps i H). cbn. ring.
    + rewrite E. cbn [rbind]. eexists; split; [reflexivity|]. split; [auto|]. split; [auto|]. split; [auto|].
      intros. rewrite get_dscal, Z by auto. cbn [iscall]. ring.
  - destruct (f_nullh f) eqn:N.
    + exists dzero. split; [auto|]. split; [left; auto|]. split; [left; auto|]. split; [exact I|].
      intros. rewrite get_zero. unfold rd; cbn [ask]. rewrite (ok_nh _ _ _ O N ps i j H). cbn. ring.
    + rewrite E. cbn [rbind]. eexists; split; [reflexivity|]. split; [auto|]. split; [auto|]. split; [auto|].
      intros. rewrite get_dscal, Z by auto. cbn [iscall]. ring.
Qed.
Lemma affine_okf ss out f a b : okf ss out f -> okf ss out (s_affine f a b).
Proof.
  intros O. constructor.
  - intros ps m H Hm. destruct (affine_ask ss out f a b ps m O H Hm) as (t & ? & ? & ? & ? & _). eauto 6.
  - cbn. intros N ps i H. rewrite N. apply isnil_zero.
  - cbn. intros N ps i j H. rewrite N. apply isnil_zero.
Qed.

(** *** FuncWrap without flips *)
Definition mmap (pm : list nat) (m : meth) : option meth :=
  match m with
  | MCall => Some MCall
  | MGrad i => option_map MGrad (index_of i pm)
  | MHess i j => match index_of i pm, index_of j pm with Some k, Some l => Some (MHess k l) | _, _ => None end
  end.
Lemma iscall_mmap pm m m' : mmap pm m = Some m' -> iscall m' = iscall m.
Proof.
  destruct m as [|i|i j]; cbn; intros E.
  - now injection E as <-.
  - destruct (index_of i pm); [|discriminate]. now injection E as <-.
  - destruct (index_of i pm), (index_of j pm); try discriminate. now injection E as <-.
Qed.
Lemma mmap_lt pm m m' : mmap pm m = Some m' -> m_lt (length pm) m'.
Proof.
  destruct m as [|i|i j]; cbn; intros E.
  - injection E as <-; exact I.
  - destruct (index_of i pm) eqn:Q; [|discriminate]. injection E as <-. cbn. now apply index_of_lt in Q.
  - destruct (index_of i pm) eqn:Q, (index_of j pm) eqn:Q'; try discriminate. injection E as <-.
    apply index_of_lt in Q, Q'. cbn. tauto.
Qed.

Definition wsub (pm : list nat) (ps : list dt) : list dt := map (fun k => nth k ps dzero) pm.
Lemma wsub_sts ss pm ps : Forall (fun i => i < length ss)%nat pm -> has_sts ps ss -> has_sts (wsub pm ps) (sel ss pm).
Proof.
  intros Hb H. unfold wsub, sel, has_sts. induction Hb; cbn; constructor; auto. now apply has_sts_nth.
Qed.
Lemma sel_length ss pm : length (sel ss pm) = length pm. Proof. apply map_length. Qed.

Lemma expand_read nf nd m o t x y n d : wmap_ok (mkw nf nd m) o -> ax_sub (ns t) (fst o) -> ax_sub (ds t) (snd o) ->
  get (w_expand (mkw nf nd m) t) x y n d = get t x y (pull (m_fm m) n) (pull (m_dm m) d).
Proof.
  intros Hw H1 H2. rewrite (w_expand_norm _ o) by auto. cbn [w_dm mkw]. unfold wn. cbn [w_fm w_nf w_flip mkw].
  unfold flip_idx. cbn [fold_left]. destruct Hw as [L1 L2 L3 _ _ _ _]. cbn [w_fm w_nf mkw] in *.
  unfold get. f_equal. destruct H1 as [H1|H1]; [now rewrite H1|].
  pose proof (clamp_pull (fst o) (m_fm m) nf n ltac:(lia) L2 L3) as C.
  assert (G : forall i, clamp (ns t) i = clamp (ns t) (clamp (fst o) i)).
  { clear - H1. induction H1 as [|s s' a o' Hs H IH]; intros [|k i]; cbn; auto. f_equal; auto. unfold clampi.
    destruct (Nat.leb_spec s 1), (Nat.leb_spec s' 1); auto; lia. }
  rewrite G, C, <- G. reflexivity.
Qed.

Lemma wrap_ask ss nf nd m o f ps mm : maps_ok ss nf nd m o -> okf (sel ss (m_pm m)) o f ->
  has_sts ps ss -> m_lt (length ss) mm ->
  exists t, ask (s_wrap (mkw nf nd m) f) ps mm = Ok t /\
    ax_sub (ns t) (fst (m_out nf nd m o)) /\ ax_sub (ds t) (snd (m_out nf nd m o)) /\ axes mm t /\
    forall x y n d, get t x y n d =
      match mmap (m_pm m) mm with
      | Some m' => rd f (wsub (m_pm m) ps) m' x y (pull (m_fm m) n) (pull (m_dm m) d)
      | None => 0
      end.
Proof.
  intros (Hn & Hb & Hw) O H Hm.
  pose proof (wsub_sts ss _ ps Hb H) as Hs.
  assert (IM : imap (m_pm m) ps = Ok (wsub (m_pm m) ps)) by (apply (imap_ok ss (mkw nf nd m) Hb ps H)).
  assert (EX : forall t, ax_sub (ns t) (fst o) -> ax_sub (ds t) (snd o) ->
     ax_sub (ns (w_expand (mkw nf nd m) t)) (fst (m_out nf nd m o)) /\
     ax_sub (ds (w_expand (mkw nf nd m) t)) (snd (m_out nf nd m o))).
  { intros t T1 T2. destruct Hw as [L1 L2 L3 L4 L5 L6 L7]. unfold flat in L7. apply Forall_app in L7 as [P1 P2].
    split; right; apply ax_le_expand; auto. }
  assert (ZZ : forall F mm', mm = mm' -> mmap (m_pm m) mm = None -> F = Ok dzero -> exists t, F = Ok t /\
    ax_sub (ns t) (fst (m_out nf nd m o)) /\ ax_sub (ds t) (snd (m_out nf nd m o)) /\ axes mm t /\
    forall x y n d, get t x y n d =
      match mmap (m_pm m) mm with
      | Some m' => rd f (wsub (m_pm m) ps) m' x y (pull (m_fm m) n) (pull (m_dm m) d)
      | None => 0
      end).
  { intros F mm' Q N ->. exists dzero. split; [auto|]. split; [left; auto|]. split; [left; auto|].
    split; [destruct mm; cbn; auto|]. intros. now rewrite N. }
  assert (OKK : forall m', mmap (m_pm m) mm = Some m' -> exists t, ask f (wsub (m_pm m) ps) m' = Ok t /\
     ax_sub (ns t) (fst o) /\ ax_sub (ds t) (snd o) /\ axes m' t).
  { intros m' Em. apply (ok_ask _ _ _ O); auto. rewrite sel_length. eapply mmap_lt, Em. }
  destruct mm as [|i|i j].
  - destruct (OKK MCall eq_refl) as (t & E & A1 & A2 & A3). cbn [ask] in *. cbn [s_wrap f_call]. unfold wrap_call. cbn [w_pm mkw]. rewrite IM. cbn [rbind]. rewrite E. cbn [rbind].
    eexists; split; [reflexivity|]. destruct (EX t A1 A2). split; [auto|]. split; [auto|]. split; [exact A3|].
    intros. rewrite (expand_read nf nd m o) by auto. cbn [mmap]. unfold rd; cbn [ask]. now rewrite E.
  - cbn [ask s_wrap f_grad]. destruct (f_nullg f) eqn:N.
    + exists dzero. split; [auto|]. split; [left; auto|]. split; [left; auto|]. split; [reflexivity|].
      intros. rewrite get_zero. cbn [mmap]. destruct (index_of i (m_pm m)); auto. cbn [option_map]. unfold rd; cbn [ask].
      symmetry. apply (ok_ng _ _ _ O N); auto.
    + unfold wrap_grad. cbn [w_pm mkw]. rewrite IM. cbn [rbind]. unfold rindex. destruct (index_of i (m_pm m)) as [k|] eqn:E.
      * destruct (OKK (MGrad k)) as (t & Et & A1 & A2 & A3); [cbn [mmap]; now rewrite E|]. cbn [ask] in Et. cbn [rbind]. rewrite Et. cbn [rbind catch_value].
        eexists; split; [reflexivity|]. destruct (EX t A1 A2). split; [auto|]. split; [auto|]. split; [exact A3|].
        intros. rewrite (expand_read nf nd m o) by auto. cbn [mmap]. rewrite E. cbn [option_map]. unfold rd; cbn [ask]. now rewrite Et.
      * cbn [rbind catch_value]. apply (ZZ _ _ eq_refl); auto. cbn. now rewrite E.
  - cbn [ask s_wrap f_hess]. destruct (f_nullh f) eqn:N.
    + exists dzero. split; [auto|]. split; [left; auto|]. split; [left; auto|]. split; [exact I|].
      intros. rewrite get_zero. cbn [mmap]. destruct (index_of i (m_pm m)); auto. destruct (index_of j (m_pm m)); auto. unfold rd; cbn [ask].
      symmetry. apply (ok_nh _ _ _ O N); auto.
    + unfold wrap_hess. cbn [w_pm mkw]. rewrite IM. cbn [rbind]. unfold rindex. destruct (index_of i (m_pm m)) as [k|] eqn:E.
      * destruct (index_of j (m_pm m)) as [l|] eqn:E'.
        -- destruct (OKK (MHess k l)) as (t & Et & A1 & A2 & A3); [cbn [mmap]; now rewrite E, E'|]. cbn [ask] in Et. cbn [rbind]. rewrite Et. cbn [rbind catch_value].
           eexists; split; [reflexivity|]. destruct (EX t A1 A2). split; [auto|]. split; [auto|]. split; [exact A3|].
           intros. rewrite (expand_read nf nd m o) by auto. cbn [mmap]. rewrite E, E'. unfold rd; cbn [ask]. now rewrite Et.
        -- cbn [rbind catch_value]. apply (ZZ _ _ eq_refl); auto. cbn. now rewrite E, E'.
      * cbn [rbind catch_value]. apply (ZZ _ _ eq_refl); auto. cbn. now rewrite E.
Qed.
Lemma wrap_okf ss nf nd m o f : maps_ok ss nf nd m o -> okf (sel ss (m_pm m)) o f ->
  okf ss (m_out nf nd m o) (s_wrap (mkw nf nd m) f).
Proof.
  intros M O. constructor.
  - intros ps mm H Hm. destruct (wrap_ask ss nf nd m o f ps mm M O H Hm) as (t & ? & ? & ? & ? & _). eauto 6.
  - cbn. intros N ps i H. rewrite N. apply isnil_zero.
  - cbn. intros N ps i j H. rewrite N. apply isnil_zero.
Qed.
Lemma wrap_rd ss nf nd m o f ps mm x y n d : maps_ok ss nf nd m o -> okf (sel ss (m_pm m)) o f ->
  has_sts ps ss -> m_lt (length ss) mm ->
  rd (s_wrap (mkw nf nd m) f) ps mm x y n d =
      match mmap (m_pm m) mm with
      | Some m' => rd f (wsub (m_pm m) ps) m' x y (pull (m_fm m) n) (pull (m_dm m) d)
      | None => 0
      end.
Proof.
  intros M O H Hm. destruct (wrap_ask ss nf nd m o f ps mm M O H Hm) as (t & E & _ & _ & _ & Q).
  unfold rd at 1. rewrite E. apply Q.
Qed.

(** *** composition of maps *)
Definition pick (l k : list nat) : list nat := map (fun i => nth i l 0%nat) k.
Definition mcomp (m mk : maps) : maps :=
  mkM (pick (m_pm m) (m_pm mk)) (pick (m_fm m) (m_fm mk)) (pick (m_dm m) (m_dm mk)).
Lemma imap_pick l k : Forall (fun i => i < length l)%nat k -> imap k l = Ok (pick l k).
Proof.
  intros H. unfold imap, pick. apply rmapM_all_ok. intros i Hi. eapply Forall_forall in H; [|exact Hi].
  unfold rnth. now rewrite (nth_error_nth' l 0%nat).
Qed.
Lemma pick_NoDup l k : NoDup l -> NoDup k -> Forall (fun i => i < length l)%nat k -> NoDup (pick l k).
Proof.
  intros Hl Hk Hb. unfold pick. induction Hk as [|i k Hi Hk IH]; cbn; constructor.
  - intros C. apply in_map_iff in C as (j & E & Hj). inversion Hb as [|? ? B1 B2]; subst.
    assert (j = i) as ->; [|contradiction]. apply (NoDup_nth l 0%nat); auto. rewrite Forall_forall in B2. auto.
  - apply IH. now inversion Hb.
Qed.
Lemma pick_Forall (P : nat -> Prop) l k : Forall P l -> Forall (fun i => i < length l)%nat k -> Forall P (pick l k).
Proof.
  intros Hl Hb. unfold pick. apply Forall_map, Forall_forall. intros i Hi. rewrite Forall_forall in Hb, Hl. apply Hl, nth_In; auto.
Qed.
Lemma pick_length l k : length (pick l k) = length k. Proof. apply map_length. Qed.
Lemma pull_pick l k i : Forall (fun j => j < length l)%nat k -> pull (pick l k) i = pull k (pull l i).
Proof.
  intros H. unfold pick. unfold pull at 1 2. rewrite map_map. apply map_ext_in. intros a Ha. eapply Forall_forall in H; [|exact Ha].
  rewrite nth_pull. destruct (Nat.ltb_spec a (length l)); [auto|lia].
Qed.
Lemma wsub_pick l k ps : Forall (fun j => j < length l)%nat k -> wsub (pick l k) ps = wsub k (wsub l ps).
Proof.
  intros H. unfold wsub at 1 2, pick. rewrite map_map. apply map_ext_in. intros a Ha. eapply Forall_forall in H; [|exact Ha].
  unfold wsub. rewrite nth_indep with (l := map (fun j => nth j ps dzero) l) (d' := (fun j => nth j ps dzero) 0%nat) by now rewrite map_length.
  now rewrite (map_nth (fun j => nth j ps dzero)).
Qed.
Lemma sel_pick ss l k : Forall (fun j => j < length l)%nat k -> sel ss (pick l k) = sel (sel ss l) k.
Proof.
  intros H. unfold sel at 1 2, pick. rewrite map_map. apply map_ext_in. intros a Ha. eapply Forall_forall in H; [|exact Ha].
  unfold sel. rewrite nth_indep with (l := map (fun j => nth j ss ([],[])) l) (d' := (fun j => nth j ss ([],[])) 0%nat) by now rewrite map_length.
  now rewrite (map_nth (fun j => nth j ss ([],[]))).
Qed.
Lemma index_of_pick l k i : NoDup l -> Forall (fun j => j < length l)%nat k ->
  index_of i (pick l k) = match index_of i l with Some a => index_of a k | None => None end.
Proof.
  intros Hl H. induction H as [|b k Hb H IH]; cbn.
  - destruct (index_of i l); reflexivity.
  - unfold pick in IH. rewrite IH. destruct (Nat.eqb_spec (nth b l 0%nat) i) as [<-|E].
    + rewrite index_of_nth by auto. cbn. now rewrite Nat.eqb_refl.
    + destruct (index_of i l) as [a|] eqn:Q; auto. destruct (Nat.eqb_spec b a) as [->|]; auto.
      apply index_of_lt in Q as [_ Q]. contradiction.
Qed.
Lemma mmap_pick l k m : NoDup l -> Forall (fun j => j < length l)%nat k ->
  mmap (pick l k) m = match mmap l m with Some m' => mmap k m' | None => None end.
Proof.
  intros Hl H. destruct m as [|i|i j]; cbn [mmap]; auto.
  - rewrite index_of_pick by auto. destruct (index_of i l); reflexivity.
  - rewrite !index_of_pick by auto. destruct (index_of i l); auto. destruct (index_of j l); auto.
    destruct (index_of n k); auto.
Qed.

Section Comp.
Context (ss : list pst) (nf nd nf' nd' : nat) (m mk : maps) (o ok : pst).
Hypothesis M : maps_ok ss nf nd m o.
Hypothesis Mk : maps_ok (sel ss (m_pm m)) nf' nd' mk ok.
Hypothesis Lf : length (fst o) = nf'.
Hypothesis Ld : length (snd o) = nd'.
Lemma comp_bounds : Forall (fun i => i < length (m_pm m))%nat (m_pm mk) /\
  Forall (fun i => i < length (m_fm m))%nat (m_fm mk) /\ Forall (fun i => i < length (m_dm m))%nat (m_dm mk).
Proof.
  destruct M as (N1 & B1 & W1), Mk as (N2 & B2 & W2). rewrite sel_length in B2. split; auto.
  destruct W1 as [L1 _ _ L4 _ _ _], W2 as [_ _ L3 _ _ L6 _]. cbn in *. rewrite L1, L4, Lf, Ld. auto.
Qed.
Lemma comp_ok : maps_ok ss nf nd (mcomp m mk) ok.
Proof.
  destruct comp_bounds as (P1 & P2 & P3). destruct M as (N1 & B1 & W1), Mk as (N2 & B2 & W2).
  split; [cbn; now apply pick_NoDup|]. split; [cbn; now apply pick_Forall|].
  destruct W1 as [L1 L2 L3 L4 L5 L6 L7], W2 as [K1 K2 K3 K4 K5 K6 K7]. cbn in *.
  constructor; cbn; rewrite ?pick_length; auto using pick_NoDup, pick_Forall.
Qed.
Lemma comp_sel : sel ss (m_pm (mcomp m mk)) = sel (sel ss (m_pm m)) (m_pm mk).
Proof. cbn. apply sel_pick. apply comp_bounds. Qed.
Lemma comp_rd f ps mm x y n d : okf (sel (sel ss (m_pm m)) (m_pm mk)) ok f -> has_sts ps ss -> m_lt (length ss) mm ->
  rd (s_wrap (mkw nf nd (mcomp m mk)) f) ps mm x y n d =
  match mmap (m_pm m) mm with
  | Some m' => rd (s_wrap (mkw nf' nd' mk) f) (wsub (m_pm m) ps) m' x y (pull (m_fm m) n) (pull (m_dm m) d)
  | None => 0
  end.
Proof.
  intros O H Hm. destruct comp_bounds as (P1 & P2 & P3). pose proof M as (N1 & B1 & W1).
  rewrite (wrap_rd ss nf nd _ ok); [|apply comp_ok|rewrite comp_sel; auto|auto|auto].
  cbn [mcomp m_pm m_fm m_dm]. rewrite mmap_pick, wsub_pick, !pull_pick by auto.
  destruct (mmap (m_pm m) mm) as [m'|] eqn:E; auto.
  rewrite (wrap_rd (sel ss (m_pm m)) nf' nd' mk ok); auto.
  - now apply wsub_sts.
  - rewrite sel_length. eapply mmap_lt, E.
Qed.
End Comp.

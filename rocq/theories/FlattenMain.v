(** Operators, Sum.add and Product.add: the statements. *)
From Verif Require Import Prelude DenseModel FuncModel AnalyticSpec FuncSpec DenseProofs FuncLemmas FuncAffine FuncSum FuncWrapP FuncCompose FuncProduct FlattenModel FlattenSpec FlattenProofs FlattenSum FlattenAdd FlattenTop FlattenTyped.
From Coquelicot Require Import Coquelicot.
From Coq Require Import Reals Lra.
Import List ListNotations.
Open Scope R_scope.

(** *** operators *)
Definition not_affine (e : fexpr) : Prop := match e with EAffine _ _ _ => False | _ => True end.

Lemma ops_affine ops : forall e a b,
  fold_left apply_op ops (EAffine e a b) = EAffine e (fold_left op_slope ops a) (fold_left op_num ops b).
Proof.
  induction ops as [|o ops IH]; intros e a b; [reflexivity|]. cbn [fold_left]. rewrite <- IH. f_equal.
  destruct o; cbn [apply_op mk_affine op_slope op_num]; f_equal; ring.
Qed.
Lemma ops_first e o ops : not_affine e ->
  fold_left apply_op (o :: ops) e = EAffine e (fold_left op_slope (o :: ops) 1) (fold_left op_num (o :: ops) 0).
Proof.
  intros N. cbn [fold_left]. rewrite <- ops_affine. f_equal.
  destruct o; destruct e; try contradiction; cbn [apply_op mk_affine op_slope op_num]; f_equal; ring.
Qed.
Lemma slope_lin ops : forall a r, fold_left op_slope ops (a * r) = fold_left op_slope ops a * r.
Proof.
  induction ops as [|o ops IH]; intros a r; [reflexivity|]. cbn [fold_left]. rewrite <- IH. f_equal.
  destruct o; cbn; ring.
Qed.
Lemma num_lin ops : forall a r b, fold_left op_num ops (a * r + b) = fold_left op_slope ops a * r + fold_left op_num ops b.
Proof.
  induction ops as [|o ops IH]; intros a r b; [reflexivity|]. cbn [fold_left]. rewrite <- IH. f_equal.
  destruct o; cbn; ring.
Qed.

Lemma ops_read ss out e ops ps m x y n d : not_affine e -> okf ss out (den e) -> has_sts ps ss -> m_lt (length ss) m ->
  rd (den (fold_left apply_op ops e)) ps m x y n d =
  match m with MCall => fold_left op_num ops | _ => fold_left op_slope ops end (rd (den e) ps m x y n d).
Proof.
  intros N O H Hm. destruct ops as [|o ops]; [destruct m; reflexivity|].
  rewrite ops_first by auto. cbn [den].
  destruct (affine_ask ss out (den e) (fold_left op_slope (o :: ops) 1) (fold_left op_num (o :: ops) 0) ps m O H Hm) as (t & E & _ & _ & _ & G).
  unfold rd at 1. rewrite E. cbn [val]. rewrite G. set (r := rd (den e) ps m x y n d).
  destruct m; cbn [iscall].
  - pose proof (num_lin (o :: ops) 1 r 0) as Q. rewrite Rmult_1_l, Rplus_0_r in Q. rewrite Q. ring.
  - pose proof (slope_lin (o :: ops) 1 r) as Q. rewrite Rmult_1_l in Q. rewrite Q. ring.
  - pose proof (slope_lin (o :: ops) 1 r) as Q. rewrite Rmult_1_l in Q. rewrite Q. ring.
Qed.

Theorem operators_meaning ss out e ops ps : not_affine e -> wellformed ss out (den e) -> hess_both ss out (den e) -> has_sts ps ss ->
  let f := fold_left apply_op ops e in
  (forall n d, value f ps n d = fold_left op_num ops (value e ps n d)) /\
  (forall i x n d, (i < length ss)%nat -> gradient f ps i x n d = fold_left op_slope ops (gradient e ps i x n d)) /\
  (forall i j x y n d, (i < length ss)%nat -> (j < length ss)%nat ->
     hessian f ps i j x y n d = fold_left op_slope ops (hessian e ps i j x y n d)).
Proof.
  intros N W B H f. pose proof (okf_wf _ _ _ W B) as O. split; [|split].
  - intros n d. exact (ops_read ss out e ops ps MCall [] [] n d N O H I).
  - intros i x n d Hi. exact (ops_read ss out e ops ps (MGrad i) x [] n d N O H Hi).
  - intros i j x y n d Hi Hj. exact (ops_read ss out e ops ps (MHess i j) x y n d N O H (conj Hi Hj)).
Qed.
Theorem operators_correct ss out D e ops : not_affine e -> correct ss out D (den e) -> correct ss out D (den (fold_left apply_op ops e)).
Proof.
  intros N C. destruct ops as [|o ops]; [exact C|]. rewrite ops_first by auto. cbn [den]. now apply affine_correct.
Qed.
Theorem operators_eval ss out e ops : not_affine e -> wellformed ss out (den e) -> eval_agrees ss out (den e) ->
  eval_agrees ss out (den (fold_left apply_op ops e)).
Proof.
  intros N W C. destruct ops as [|o ops]; [exact C|]. rewrite ops_first by auto. cbn [den]. now apply affine_eval.
Qed.

(** *** Sum.add *)
(** the parameters selected by a param_map *)
Notation sub_params m ps := (map (fun k => nth k ps dzero) (m_pm m)) (only parsing).

Lemma okf_callable ss out e : okf ss out (den e) -> callable e ss.
Proof.
  intros O ps H. split; [|split].
  - destruct (ok_ask _ _ _ O ps MCall H I) as (t & E & _). eauto.
  - intros i Hi. destruct (ok_ask _ _ _ O ps (MGrad i) H Hi) as (t & E & _). eauto.
  - intros i j Hi Hj. destruct (ok_ask _ _ _ O ps (MHess i j) H (conj Hi Hj)) as (t & E & _). eauto.
Qed.
Lemma typed_callable e ss out : typed e ss out -> callable e ss.
Proof. intros T. eapply okf_callable, typed_okf, T. Qed.

Lemma Forall2_app_l {A B} (P : A -> B -> Prop) l1 l2 l' : Forall2 P (l1 ++ l2) l' ->
  exists u v, l' = u ++ v /\ Forall2 P l1 u /\ Forall2 P l2 v.
Proof. intros H. apply Forall2_app_inv_l in H as (u & v & H1 & H2 & E). eauto. Qed.

(** replacing the last atom by its flattening *)
Lemma flat_last nf nd ss l m e A out : flatok nf nd ss (l ++ ((m, e) :: nil)) out ->
  exists o, maps_ok ss nf nd m o /\ typed e (sel ss (m_pm m)) o /\
    (flatok nf nd ss A (m_out nf nd m o) -> flatok nf nd ss (l ++ A) out).
Proof.
  intros (outs & N & S & B & ->). apply Forall2_app_l in S as (u & v & -> & S1 & S2).
  inversion S2 as [|? o' ? v' (o & M & T & E) S3]; subst. inversion S3; subst. cbn [fst snd] in *.
  exists o. split; [auto|]. split; [auto|]. intros (vo & NA & SA & BA & EA).
  exists (u ++ vo). split; [|split; [|split]].
  - destruct l, A; cbn; try discriminate. contradiction.
  - now apply Forall2_app.
  - unfold broadcastable in *. rewrite join_app in *. rewrite join_1, EA in B.
    apply Forall_app in B as [B1 B2]. apply Forall_app. split; [exact B1|].
    inversion B2 as [|? ? B3 _]; subst. rewrite Forall_forall in BA. apply Forall_forall. intros x Hx.
    apply (ple_trans x (join vo)); [apply BA; auto|exact B3].
  - rewrite !join_app, join_1, EA. reflexivity.
Qed.

Lemma shaped_atom_good nf nd ss l outs : shaped nf nd ss (map unw l) outs ->
  Forall (fun p => exists o, okf ss o (snd p)) (map (fun '(w, m, e') => (w, s_wrap (mkw nf nd m) (den e'))) l).
Proof.
  intros S. apply Forall_map, Forall_forall. intros [[w m] e] Hi.
  assert (Hi' : In (m, e) (map unw l)) by (apply in_map_iff; exists (w, m, e); auto).
  destruct (shaped_in _ _ _ _ _ _ _ S Hi') as (o & M & T & _). cbn [snd].
  eexists. apply wrap_okf; eauto. now apply typed_okf.
Qed.
Lemma sum_rd nf nd b ss l outs ps mm x y n d : shaped nf nd ss (map unw l) outs -> has_sts ps ss -> m_lt (length ss) mm ->
  rd (den (ESum nf nd b l)) ps mm x y n d = Rsum (fun a => ard nf nd a ps mm x y n d) l + iscall mm * b.
Proof.
  intros S H Hm. cbn [den]. destruct (sum_read ss _ b ps mm (shaped_atom_good _ _ _ _ _ S) H Hm) as (t & E & G).
  unfold rd at 1. rewrite E. cbn [val]. rewrite G, Rsum_map. f_equal. apply Rsum_ext. intros [[w m] e] _. reflexivity.
Qed.

Theorem sum_add_meaning foo ss m w nf nd b atoms out :
  typed (ESum nf nd b (atoms ++ ((w, m, foo) :: nil))) ss out ->
  exists S', sum_add foo (mkSum nf nd b atoms) m w = Ok S' /\
    typed (sum_expr S') ss out /\ callable (sum_expr S') ss /\
    forall ps, has_sts ps ss ->
      (forall n d, value (sum_expr S') ps n d =
         value (ESum nf nd b atoms) ps n d + w * value foo (sub_params m ps) (pull (m_fm m) n) (pull (m_dm m) d) + drift w foo) /\
      (forall i x n d, (i < length ss)%nat -> gradient (sum_expr S') ps i x n d =
         gradient (ESum nf nd b atoms) ps i x n d +
         match index_of i (m_pm m) with
         | Some k => w * gradient foo (sub_params m ps) k x (pull (m_fm m) n) (pull (m_dm m) d)
         | None => 0
         end) /\
      (forall i j x y n d, (i < length ss)%nat -> (j < length ss)%nat -> hessian (sum_expr S') ps i j x y n d =
         hessian (ESum nf nd b atoms) ps i j x y n d +
         match index_of i (m_pm m), index_of j (m_pm m) with
         | Some k, Some l => w * hessian foo (sub_params m ps) k l x y (pull (m_fm m) n) (pull (m_dm m) d)
         | _, _ => 0
         end).
Proof.
  intros T. apply typed_sum_shaped in T as (outs & _ & Sh & Bc & Eo). rewrite map_app in Sh. cbn [map] in Sh.
  assert (FO : flatok nf nd ss (map unw atoms ++ ((m, foo) :: nil)) out).
  { exists outs. split; [destruct atoms; discriminate|]. auto. }
  destruct (flat_last nf nd ss _ m foo [] out FO) as (o & M & T & _).
  destruct (sum_flat foo ss m o w (mkSum nf nd b atoms) T M) as (A & B & E & G1 & G2).
  destruct (sum_flat_typed foo ss m o w (mkSum nf nd b atoms) T M) as (A' & B' & E' & F).
  rewrite E in E'. injection E' as _ Ea. apply app_inv_head in Ea as <-. cbn [s_nf s_nd s_b s_atoms] in *.
  assert (FT : flatok nf nd ss (map unw (atoms ++ A)) out).
  { destruct (flat_last nf nd ss _ m foo (map unw A) out FO) as (o2 & M2 & T2 & K). rewrite map_app. apply K.
    (* the shape of foo is unique *)
    destruct (sum_flat_typed foo ss m o2 w (mkSum nf nd b atoms) T2 M2) as (A2 & B2 & E2 & F2).
    rewrite E in E2. injection E2 as _ Ea. apply app_inv_head in Ea as <-. exact F2. }
  exists (mkSum nf nd (b + B) (atoms ++ A)). split; [exact E|]. unfold sum_expr. cbn [s_nf s_nd s_b s_atoms].
  assert (TS : typed (ESum nf nd (b + B) (atoms ++ A)) ss out).
  { apply typed_sum_shaped. destruct FT as (u & N & S1 & B1 & E1). exists u. split; [|auto].
    intros C. rewrite C in N. now apply N. }
  split; [exact TS|]. split; [eapply typed_callable, TS|].
  destruct FT as (u & _ & S1 & _ & _). apply Forall2_app_l in Sh as (u1 & u2 & -> & Sh1 & Sh2).
  assert (KEY : forall ps mm x y n d, has_sts ps ss -> m_lt (length ss) mm ->
    rd (den (ESum nf nd (b + B) (atoms ++ A))) ps mm x y n d =
    rd (den (ESum nf nd b atoms)) ps mm x y n d +
    w * (match mmap (m_pm m) mm with
         | Some m' => rd (den foo) (wsub (m_pm m) ps) m' x y (pull (m_fm m) n) (pull (m_dm m) d)
         | None => 0 end) + iscall mm * drift w foo).
  { intros ps mm x y n d H Hm. rewrite (sum_rd nf nd (b + B) ss (atoms ++ A) u), (sum_rd nf nd b ss atoms u1) by auto.
    rewrite Rsum_app. pose proof (G2 ps mm x y n d H Hm) as Q.
    rewrite (wrap_rd ss nf nd m o) in Q by (auto; now apply typed_okf). lra. }
  intros ps H. split; [|split].
  - intros n d. pose proof (KEY ps MCall [] [] n d H I) as Q. cbn [mmap iscall] in Q. unfold value. unfold rd, wsub in Q. cbn [ask] in Q. lra.
  - intros i x n d Hi. pose proof (KEY ps (MGrad i) x [] n d H Hi) as Q. cbn [mmap iscall] in Q. unfold gradient. unfold rd, wsub in Q. cbn [ask] in Q.
    rewrite Q. destruct (index_of i (m_pm m)); cbn [option_map ask]; ring.
  - intros i j x y n d Hi Hj. pose proof (KEY ps (MHess i j) x y n d H (conj Hi Hj)) as Q. cbn [mmap iscall] in Q. unfold hessian. unfold rd, wsub in Q. cbn [ask] in Q.
    rewrite Q. destruct (index_of i (m_pm m)); [destruct (index_of j (m_pm m))|]; cbn [ask]; ring.
Qed.

Lemma no_drift_offset foo : forall w, no_offset foo -> drift w foo = 0.
Proof.
  induction foo as [f|e a b IH|nf nd b atoms IH|nf nd atoms IH] using fexpr_ind'; intros w N; cbn [drift]; auto.
  - destruct N as [-> N]. rewrite IH by auto. ring.
  - destruct N as [-> N]. rewrite Rmult_0_r, Rplus_0_l.
    induction IH as [|[[wk mk] e] l He IH IHl]; [reflexivity|]. destruct N as [N1 N2]. cbn [snd] in He.
    rewrite He, IHl by auto. ring.
Qed.
Lemma no_drift_unit foo : unit_weights foo -> drift 1 foo = 0.
Proof.
  induction foo as [f|e a b IH|nf nd b atoms IH|nf nd atoms IH] using fexpr_ind'; intros N; cbn [drift]; auto.
  - destruct N as [-> N]. rewrite Rmult_1_l, IH by auto. ring.
  - replace ((1 - 1) * b) with 0 by ring. rewrite Rplus_0_l.
    induction IH as [|[[wk mk] e] l He IH IHl]; [reflexivity|]. destruct N as (-> & N1 & N2). cbn [snd] in He.
    rewrite Rmult_1_l, He, IHl by auto. ring.
Qed.

(** *** Product.add *)
Lemma p_shaped_good nf nd ss l outs : shaped nf nd ss l outs ->
  Forall (fun f => exists o, okf ss o f) (map (fun '(m, e') => s_wrap (mkw nf nd m) (den e')) l).
Proof.
  intros S. apply Forall_map, Forall_forall. intros [m e] Hi.
  destruct (shaped_in _ _ _ _ _ _ _ S Hi) as (o & M & T & _).
  eexists. apply wrap_okf; eauto. now apply typed_okf.
Qed.
Lemma prod_jet nf nd ss l outs ps i j x y n d : shaped nf nd ss l outs -> l <> [] -> has_sts ps ss ->
  (i < length ss)%nat -> (j < length ss)%nat ->
  jrd (den (EProduct nf nd l)) ps i j x y n d = jprod (map (fun a => pjet nf nd a ps i j x y n d) l).
Proof.
  intros S N H Hi Hj. cbn [den]. rewrite (product_jet ss); auto.
  - rewrite map_map. f_equal. apply map_ext. intros [m e]. reflexivity.
  - eapply p_shaped_good, S.
  - intros C. apply map_eq_nil in C. contradiction.
Qed.

(** the new factor, re-indexed *)
Definition factor_value m foo ps n d := value foo (sub_params m ps) (pull (m_fm m) n) (pull (m_dm m) d).
Definition factor_gradient m foo ps i x n d :=
  match index_of i (m_pm m) with
  | Some k => gradient foo (sub_params m ps) k x (pull (m_fm m) n) (pull (m_dm m) d)
  | None => 0
  end.
Definition factor_hessian m foo ps i j x y n d :=
  match index_of i (m_pm m), index_of j (m_pm m) with
  | Some k, Some l => hessian foo (sub_params m ps) k l x y (pull (m_fm m) n) (pull (m_dm m) d)
  | _, _ => 0
  end.

Lemma factor_jet ss nf nd m o foo ps i j x y n d : maps_ok ss nf nd m o -> typed foo (sel ss (m_pm m)) o -> has_sts ps ss ->
  (i < length ss)%nat -> (j < length ss)%nat ->
  jrd (s_wrap (mkw nf nd m) (den foo)) ps i j x y n d =
  (factor_value m foo ps n d, factor_gradient m foo ps i x n d, factor_gradient m foo ps j y n d, factor_hessian m foo ps i j x y n d).
Proof.
  intros M T H Hi Hj. apply typed_okf in T. unfold jrd.
  rewrite !(wrap_rd ss nf nd m o) by first [assumption | exact I | (split; assumption)]. cbn [mmap].
  unfold factor_value, factor_gradient, factor_hessian, value, gradient, hessian, rd, wsub. cbn [ask].
  repeat f_equal.
  - destruct (index_of i (m_pm m)); reflexivity.
  - destruct (index_of j (m_pm m)); reflexivity.
  - destruct (index_of i (m_pm m)); [destruct (index_of j (m_pm m))|]; reflexivity.
Qed.

Theorem prod_add_meaning foo ss m nf nd atoms out : atoms <> [] ->
  typed (EProduct nf nd (atoms ++ ((m, foo) :: nil))) ss out ->
  exists P', prod_add foo (mkProd nf nd atoms) m = Ok P' /\
    typed (prod_expr P') ss out /\ callable (prod_expr P') ss /\
    forall ps i j x y n d, has_sts ps ss -> (i < length ss)%nat -> (j < length ss)%nat ->
      let P := EProduct nf nd atoms in
      value (prod_expr P') ps n d = value P ps n d * factor_value m foo ps n d /\
      gradient (prod_expr P') ps i x n d =
        gradient P ps i x n d * factor_value m foo ps n d + value P ps n d * factor_gradient m foo ps i x n d /\
      hessian (prod_expr P') ps i j x y n d =
        hessian P ps i j x y n d * factor_value m foo ps n d +
        gradient P ps i x n d * factor_gradient m foo ps j y n d +
        gradient P ps j y n d * factor_gradient m foo ps i x n d +
        value P ps n d * factor_hessian m foo ps i j x y n d.
Proof.
  intros Hne T. apply typed_product_shaped in T as (outs & N & Sh & Bc & Eo).
  assert (FO : flatok nf nd ss (atoms ++ ((m, foo) :: nil)) out) by (exists outs; auto).
  destruct (flat_last nf nd ss _ m foo [] out FO) as (o & M & T & _).
  destruct (prod_flat foo ss m o (mkProd nf nd atoms) T M) as (A & E & G1 & GN & G2).
  cbn [p_nf p_nd p_atoms] in *.
  assert (FT : flatok nf nd ss (atoms ++ A) out).
  { destruct (flat_last nf nd ss _ m foo A out FO) as (o2 & M2 & T2 & K). apply K.
    destruct (prod_flat_typed foo ss m o2 (mkProd nf nd atoms) T2 M2) as (A2 & E2 & F2).
    rewrite E in E2. injection E2 as Ea. apply app_inv_head in Ea as <-. exact F2. }
  exists (mkProd nf nd (atoms ++ A)). split; [exact E|]. unfold prod_expr. cbn [p_nf p_nd p_atoms].
  assert (TS : typed (EProduct nf nd (atoms ++ A)) ss out).
  { apply typed_product_shaped. exact FT. }
  split; [exact TS|]. split; [eapply typed_callable, TS|].
  destruct FT as (u & NN & S1 & _ & _). apply Forall2_app_l in Sh as (u1 & u2 & -> & Sh1 & Sh2).
  intros ps i j x y n d H Hi Hj.
  pose proof (prod_jet nf nd ss (atoms ++ A) u ps i j x y n d S1 NN H Hi Hj) as Q.
  rewrite map_app, jprod_app, <- (prod_jet nf nd ss atoms u1), <- G2, (factor_jet ss nf nd m o) in Q by assumption.
  unfold jrd, rd in Q. cbn [ask jmul] in Q. unfold value, gradient, hessian. pose proof (f_equal (fun q => fst (fst (fst q))) Q) as Q1. pose proof (f_equal (fun q => snd (fst (fst q))) Q) as Q2. pose proof (f_equal snd Q) as Q4. cbn [fst snd] in Q1, Q2, Q4.
  split; [exact Q1|]. split; [exact Q2|]. rewrite Q4. ring.
Qed.
Theorem prod_add_first foo ss m nf nd out :
  typed (EProduct nf nd ((m, foo) :: nil)) ss out ->
  exists P', prod_add foo (mkProd nf nd []) m = Ok P' /\
    typed (prod_expr P') ss out /\ callable (prod_expr P') ss /\
    forall ps i j x y n d, has_sts ps ss -> (i < length ss)%nat -> (j < length ss)%nat ->
      value (prod_expr P') ps n d = factor_value m foo ps n d /\
      gradient (prod_expr P') ps i x n d = factor_gradient m foo ps i x n d /\
      hessian (prod_expr P') ps i j x y n d = factor_hessian m foo ps i j x y n d.
Proof.
  intros T. apply typed_product_shaped in T as (outs & N & Sh & Bc & Eo).
  assert (FO : flatok nf nd ss ([] ++ ((m, foo) :: nil)) out) by (exists outs; auto).
  destruct (flat_last nf nd ss _ m foo [] out FO) as (o & M & T & _).
  destruct (prod_flat foo ss m o (mkProd nf nd []) T M) as (A & E & G1 & GN & G2).
  cbn [p_nf p_nd p_atoms app] in *.
  assert (FT : flatok nf nd ss A out).
  { destruct (flat_last nf nd ss [] m foo A out FO) as (o2 & M2 & T2 & K). apply K.
    destruct (prod_flat_typed foo ss m o2 (mkProd nf nd []) T2 M2) as (A2 & E2 & F2).
    rewrite E in E2. cbn [p_nf p_nd p_atoms app] in *. injection E2 as <-. exact F2. }
  exists (mkProd nf nd A). split; [exact E|]. unfold prod_expr. cbn [p_nf p_nd p_atoms].
  assert (TS : typed (EProduct nf nd A) ss out) by (apply typed_product_shaped; exact FT).
  split; [exact TS|]. split; [eapply typed_callable, TS|].
  destruct FT as (u & NN & S1 & _ & _).
  intros ps i j x y n d H Hi Hj.
  pose proof (prod_jet nf nd ss A u ps i j x y n d S1 NN H Hi Hj) as Q.
  rewrite <- G2, (factor_jet ss nf nd m o) in Q by assumption.
  unfold jrd, rd in Q. cbn [ask] in Q. unfold value, gradient, hessian. injection Q as Q1 Q2 Q3 Q4. auto.
Qed.

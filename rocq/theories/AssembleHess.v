(** Proofs about the assembled Hessian (C14). *)
From Coq Require Import Ring_theory Ring.
From Verif Require Import Prelude ParamModel ParamProofs AssembleModel AssembleSpec AssembleProofs.

Section P.
Context {A : Type}.
Variables (zero one : A) (add mul sub : A -> A -> A) (opp : A -> A).
Hypothesis RT : ring_theory zero one add mul sub opp (@eq A).
Add Ring Ar2 : RT.
Notation entry := (entry zero).
Notation sumA := (sumA zero add).
Notation acc_hess := (acc_hess A).
Notation upd_hess := (upd_hess A).

Definition get3 (h : list (list (list A))) i j k := nth k (nth j (nth i h []) []) zero.
Definition hshaped (N : nat) (sz : nat -> nat -> nat) (h : list (list (list A))) :=
  length h = N /\ forall i, i < N -> length (nth i h []) = S i /\
    forall j, j <= i -> length (nth j (nth i h []) []) = sz i j.

Lemma upd_hess_spec op h r c v N sz : hshaped N sz h -> r < N -> c <= r -> block_ok (sz r c) v ->
  exists h', upd_hess op h r c v = Ok h' /\ hshaped N sz h' /\
   forall i j k, i < N -> j <= i -> k < sz i j ->
     get3 h' i j k = if (r =? i) && (c =? j) then op (get3 h i j k) (entry v k) else get3 h i j k.
Proof.
  intros [HN Hs] Hr Hc Hb. unfold AssembleModel.upd_hess. rewrite (nth_res_ok h r []) by lia. cbn [rbind].
  destruct (Hs r Hr) as [Hlr Hbr].
  destruct (upd_at_spec zero op (nth r h []) c v (S r) (sz r)) as (row & E & [Hl' Hs'] & Hn); auto.
  { split; auto. intros i Hi. apply Hbr. lia. } { lia. }
  rewrite E. cbn [rbind]. eexists; split; [reflexivity|]. split.
  - split; [now rewrite upd_nth_length|]. intros i Hi. destruct (Nat.eq_dec r i) as [<-|Hne].
    + rewrite nth_upd_nth_eq by lia. split; auto. intros j Hj. apply Hs'. lia.
    + rewrite nth_upd_nth_neq by auto. apply Hs; auto.
  - intros i j k Hi Hj Hk. unfold get3. destruct (Nat.eqb_spec r i) as [<-|Hne]; cbn [andb].
    + rewrite nth_upd_nth_eq by lia. rewrite Hn by (auto; lia). reflexivity.
    + now rewrite nth_upd_nth_neq by auto.
Qed.

Definition sel (pm : list nat) i j (pq : nat * nat) :=
  (nth (fst pq) pm 0 =? i) && (nth (snd pq) pm 0 =? j).
Definition blk3 (b : list (list (list A))) (pq : nat * nat) := nth (snd pq) (nth (fst pq) b []) [].

Definition blocks_ok (sz : nat -> nat -> nat) pm (blocks : list (list (list A))) :=
  length blocks = length pm /\ forall p, p < length pm -> length (nth p blocks []) = S p /\
    forall q, q <= p -> block_ok (sz (nth p pm 0) (nth q pm 0)) (nth q (nth p blocks []) []).

Lemma acc_hess_spec op N sz pm blocks : Forall (fun k => k < N) pm -> blocks_ok sz pm blocks ->
  forall todo h, hshaped N sz h ->
  Forall (fun pq => snd pq <= fst pq < length pm) todo ->
  (Forall (fun pq => nth (snd pq) pm 0 <= nth (fst pq) pm 0) todo /\
   exists h', acc_hess op h pm blocks todo = Ok h' /\ hshaped N sz h' /\
   forall i j k, i < N -> j <= i -> k < sz i j ->
     get3 h' i j k = fold_left (fun acc pq => op acc (entry (blk3 blocks pq) k)) (filter (sel pm i j) todo) (get3 h i j k))
  \/ (acc_hess op h pm blocks todo = Raise IndexError /\
      Exists (fun pq => nth (fst pq) pm 0 < nth (snd pq) pm 0) todo).
Proof.
  intros Hpm [Hbl Hb]. induction todo as [|[p q] todo IH]; intros h Hh Htd.
  - left. split; auto. exists h. cbn. auto.
  - inversion Htd as [|? ? Hpq Htd']; subst. cbn [fst snd] in Hpq.
    destruct (Hb p) as [Hbp Hbq]; [lia|].
    assert (HpN : nth p pm 0 < N) by (rewrite Forall_forall in Hpm; apply Hpm, nth_In; lia).
    cbn [AssembleModel.acc_hess]. rewrite (nth_res_ok pm p 0), (nth_res_ok pm q 0) by lia. cbn [rbind].
    rewrite (nth_res_ok blocks p []) by lia. cbn [rbind]. rewrite (nth_res_ok _ q []) by lia. cbn [rbind].
    destruct (le_lt_dec (nth q pm 0) (nth p pm 0)) as [Hle|Hlt].
    + destruct (upd_hess_spec op h (nth p pm 0) (nth q pm 0) (nth q (nth p blocks []) []) N sz)
        as (h1 & E1 & Hh1 & Hn1); auto.
      { apply Hbq; lia. }
      rewrite E1. cbn [rbind]. destruct (IH h1 Hh1 Htd') as [(Hf & h2 & E2 & Hh2 & Hn2)|(E2 & Hex)].
      * left. split; [constructor; auto|]. exists h2. split; auto. split; auto.
        intros i j k Hi Hj Hk. rewrite Hn2, Hn1 by auto. cbn [filter]. unfold sel at 2. cbn [fst snd].
        destruct ((nth p pm 0 =? i) && (nth q pm 0 =? j)); reflexivity.
      * right. split; auto.
    + right. split; [|left; auto]. unfold AssembleModel.upd_hess.
      destruct Hh as [HhN Hh]. rewrite (nth_res_ok h _ []) by lia. cbn [rbind].
      destruct (Hh _ HpN) as [Hrow _].
      unfold AssembleModel.upd_at. rewrite nth_res_bad by lia. reflexivity.
Qed.

Lemma in_tri_pairs n p q : In (p, q) (tri_pairs n) <-> q <= p < n.
Proof.
  unfold tri_pairs. rewrite in_flat_map. split.
  - intros (i & Hi & H). apply in_map_iff in H. destruct H as (j & E & Hj). injection E as <- <-.
    apply in_seq in Hi, Hj. lia.
  - intros H. exists p. split; [apply in_seq; lia|]. apply in_map, in_seq. lia.
Qed.
Lemma tri_ok n : Forall (fun pq => snd pq <= fst pq < n) (tri_pairs n).
Proof. apply Forall_forall. intros [p q] H. now apply in_tri_pairs in H. Qed.

Definition hsz (ps : list (param A)) i j := size_of ps i * size_of ps j.

(** One registered function. *)
Lemma acc_hess_registered op ps c h (f : A -> A) hh :
  registered ps c -> hshaped (length ps) (hsz ps) h ->
  sf_hess (snd c) (args_of ps (fst c)) = Ok hh ->
  (ascending (fst c) /\
   exists h', acc_hess op h (fst c) (map (map (map f)) hh) (tri_pairs (length (fst c))) = Ok h' /\
     hshaped (length ps) (hsz ps) h' /\
     forall i j k, i < length ps -> j <= i -> k < hsz ps i j ->
       get3 h' i j k = fold_left (fun acc pq => op acc (entry (blk3 (map (map (map f)) hh) pq) k))
                         (occurrences2 (fst c) i j) (get3 h i j k)) \/
  (acc_hess op h (fst c) (map (map (map f)) hh) (tri_pairs (length (fst c))) = Raise IndexError /\
   ~ ascending (fst c)).
Proof.
  intros (Hne & Hpm & _ & _ & (hh' & Hhh & Hl & Hb)) Hh E. rewrite Hhh in E. injection E as ->.
  destruct (acc_hess_spec op (length ps) (hsz ps) (fst c) (map (map (map f)) hh) Hpm) with
    (todo := tri_pairs (length (fst c))) (h := h) as [(Hf & h' & E' & Hh' & Hn)|(E' & Hex)]; auto.
  - split; [now rewrite map_length|]. intros p Hp. destruct (Hb p Hp) as [H1 H2].
    change [] with (map (map f) []) at 1. rewrite map_nth, map_length. split; auto.
    intros q Hq. specialize (H2 q Hq). change (nth p (map (map (map f)) hh) []) with (nth p (map (map (map f)) hh) (map (map f) [])).
    rewrite map_nth. change (nth q (map (map f) (nth p hh [])) []) with (nth q (map (map f) (nth p hh [])) (map f [])).
    rewrite map_nth. unfold block_ok in *. rewrite map_length. exact H2.
  - apply tri_ok.
  - left. split.
    + intros p q Hpq. rewrite Forall_forall in Hf. apply (Hf (p, q)). now apply in_tri_pairs.
    + exists h'. split; auto.
  - right. split; auto. intros Ha. apply Exists_exists in Hex. destruct Hex as ([p q] & Hin & Hlt).
    apply in_tri_pairs in Hin. specialize (Ha p q Hin). cbn in Hlt. lia.
Qed.

Lemma blk3_map0 hh pq k : entry (blk3 (map (map (map (mul zero))) hh) pq) k = zero.
Proof.
  destruct pq as [p q]. unfold blk3; cbn [fst snd].
  change (nth p (map (map (map (mul zero))) hh) []) with (nth p (map (map (map (mul zero))) hh) (map (map (mul zero)) [])).
  rewrite map_nth. change (nth q (map (map (mul zero)) (nth p hh [])) []) with (nth q (map (map (mul zero)) (nth p hh [])) (map (mul zero) [])).
  rewrite map_nth. apply (entry_map0 zero one add mul sub opp RT).
Qed.

Lemma nth_repeat_len {X} (x d : X) n a : a < n -> nth a (repeat x n) d = x.
Proof. intros H. apply nth_error_nth. now apply nth_error_repeat'. Qed.

Lemma zeros_shaped ps : shaped (length ps) (size_of ps) (map (fun p : param A => repeat zero (length (p_mask p))) ps).
Proof.
  split; [apply map_length|]. intros i Hi. rewrite nth_map_lt with (d := noparam) by auto.
  apply repeat_length.
Qed.

Lemma flat_hess_con_spec ps : forall cs h,
  hshaped (length ps) (hsz ps) h -> Forall (registered ps) cs ->
  (Forall (fun c => ascending (fst c)) cs /\
   exists h' hcs, flat_hess_con A zero add mul ps h cs = Ok (h', hcs) /\
    hshaped (length ps) (hsz ps) h' /\
    (forall i j k, i < length ps -> j <= i -> k < hsz ps i j -> get3 h' i j k = get3 h i j k) /\
    length hcs = length cs /\ Forall (shaped (length ps) (size_of ps)) hcs /\
    forall n i a, n < length cs -> i < length ps -> a < size_of ps i ->
      nth a (nth i (nth n hcs []) []) zero = dfun zero add ps (nth n cs ([], Build_sfunc A (fun _ => Raise TypeError) (fun _ => Raise TypeError) (fun _ => Raise TypeError))) i a)
  \/ (flat_hess_con A zero add mul ps h cs = Raise IndexError /\ Exists (fun c => ~ ascending (fst c)) cs).
Proof.
  induction cs as [|c cs IH]; intros h Hh Hcs.
  - left. split; auto. exists h, []. cbn. repeat split; auto; try apply Hh; auto. intros; lia.
  - inversion Hcs as [|? ? Hc Hcs']; subst.
    pose proof Hc as Hc0. destruct Hc0 as (Hne & Hpm & (v & Hv) & (gg & Hgg & Hlg & Hbg) & (hh & Hhh & _)).
    pose proof (acc_hess_registered add ps c h (mul zero) hh Hc Hh Hhh) as HA.
    destruct c as [pm g0]. cbn [fst snd] in *. cbn [flat_hess_con]. rewrite pick_ok by auto. cbn [rbind].
    rewrite Hgg, Hhh. cbn [rbind].
    destruct (acc_grad_spec zero add (length ps) (size_of ps) pm gg
               (map (fun p => repeat zero (length (p_mask p))) ps)) as (hc & Ec & Hsc & Hnc); auto.
    { apply zeros_shaped. }
    rewrite Ec. cbn [rbind].
    destruct HA as [(Hasc & h1 & E1 & Hh1 & Hn1)|(E1 & Hasc)]; rewrite E1; cbn [rbind].
    2:{ right. split; auto. }
    destruct (IH h1 Hh1 Hcs') as [(Hall & h2 & hcs & E2 & Hh2 & Hn2 & Hlc & Hsh & Hnn)|(E2 & Hex)];
      rewrite E2; cbn [rbind].
    2:{ right. split; auto. }
    left. split; [constructor; auto|]. exists h2, (hc :: hcs). split; auto. split; auto. split; [|split; [|split]].
    + intros i j k Hi Hj Hk. rewrite Hn2, Hn1 by auto. rewrite (fold_add zero one add mul sub opp RT).
      rewrite (sumA_zero zero one add mul sub opp RT); [ring|]. intros pq _. apply blk3_map0.
    + cbn; lia.
    + constructor; auto.
    + intros [|n] i a Hn Hi Ha; cbn [nth].
      * rewrite Hnc by auto. rewrite (fold_add zero one add mul sub opp RT). rewrite nth_map_lt with (d := noparam) by auto.
        rewrite nth_repeat_len by exact Ha. unfold dfun, fgrad. cbn [fst snd]. rewrite Hgg. cbn [got].
        ring.
      * apply Hnn; auto. cbn in Hn; lia.
Qed.

Lemma map_map_id (l : list (list (list A))) : map (map (map (fun x => x))) l = l.
Proof.
  rewrite <- (map_id l) at 2. apply map_ext. intros x. rewrite <- (map_id x) at 2. apply map_ext.
  intros y. apply map_id.
Qed.

Lemma flat_hess_reg_spec ps : forall rs h,
  hshaped (length ps) (hsz ps) h -> Forall (registered ps) rs ->
  (Forall (fun c => ascending (fst c)) rs /\
   exists h', flat_hess_reg A sub ps h rs = Ok h' /\ hshaped (length ps) (hsz ps) h' /\
    forall i j k, i < length ps -> j <= i -> k < hsz ps i j ->
      get3 h' i j k = sub (get3 h i j k) (sumA (fun c => d2fun zero add ps c i j k) rs))
  \/ (flat_hess_reg A sub ps h rs = Raise IndexError /\ Exists (fun c => ~ ascending (fst c)) rs).
Proof.
  induction rs as [|c rs IH]; intros h Hh Hrs.
  - left. split; auto. exists h. cbn. repeat split; auto; try apply Hh; auto. intros.
    unfold AssembleSpec.sumA; cbn. ring.
  - inversion Hrs as [|? ? Hc Hrs']; subst.
    pose proof Hc as Hc0. destruct Hc0 as (Hne & Hpm & (v & Hv) & _ & (hh & Hhh & _)).
    pose proof (acc_hess_registered sub ps c h (fun x => x) hh Hc Hh Hhh) as HA.
    rewrite map_map_id in HA.
    destruct c as [pm g0]. cbn [fst snd] in *. cbn [flat_hess_reg]. rewrite pick_ok by auto. cbn [rbind].
    rewrite Hhh. cbn [rbind].
    destruct HA as [(Hasc & h1 & E1 & Hh1 & Hn1)|(E1 & Hasc)]; rewrite E1; cbn [rbind].
    2:{ right. split; auto. }
    destruct (IH h1 Hh1 Hrs') as [(Hall & h2 & E2 & Hh2 & Hn2)|(E2 & Hex)].
    2:{ right. split; auto. }
    left. split; [constructor; auto|]. exists h2. split; auto. split; auto.
    intros i j k Hi Hj Hk. rewrite Hn2, Hn1 by auto. rewrite (fold_sub zero one add mul sub opp RT).
    rewrite sumA_cons. unfold d2fun at 2. unfold fhess. cbn [fst snd]. rewrite Hhh. cbn [got].
    unfold blk3. ring.
Qed.

(** Cutting a block to its free rows and columns. *)
Lemma bool_index_app {X} (u v : list X) : forall m n, length u = length m ->
  bool_index (u ++ v) (m ++ n) = bool_index u m ++ bool_index v n.
Proof.
  induction u as [|x u IH]; intros [|b m] n H; cbn in H; try lia; [reflexivity|]. cbn.
  rewrite IH by lia. destruct b; reflexivity.
Qed.
Lemma bool_index_false {X Y} (g : Y -> bool) (l : list Y) : forall (u : list X),
  (forall y, g y = false) -> bool_index u (map g l) = [].
Proof.
  induction l as [|y l IH]; intros [|x u] H; cbn; auto. rewrite H. auto.
Qed.

Lemma outer_mask_length mi mj : length (outer_mask mi mj) = length mi * length mj.
Proof.
  unfold outer_mask. induction mi as [|b mi IH]; [reflexivity|]. cbn. rewrite app_length, map_length.
  fold (flat_map (fun a => map (fun b0 => negb a && negb b0) mj)). rewrite IH. reflexivity.
Qed.

Lemma cut_rows mi mj : forall v, length v = length mi * length mj ->
  chunk A (length (free_idx mi)) (length (free_idx mj)) (bool_index v (outer_mask mi mj)) =
  map (fun a => map (fun b => nth (a * length mj + b) v zero) (free_idx mj)) (free_idx mi).
Proof.
  induction mi as [|m0 mi IH]; intros v Hv; [reflexivity|].
  cbn [length] in Hv. rewrite <- (firstn_skipn (length mj) v).
  set (u := firstn (length mj) v). set (w := skipn (length mj) v).
  assert (Hu : length u = length mj) by (subst u; rewrite firstn_length; lia).
  assert (Hw : length w = length mi * length mj) by (subst w; rewrite skipn_length; lia).
  change (outer_mask (m0 :: mi) mj) with (map (fun b => negb m0 && negb b) mj ++ outer_mask mi mj).
  rewrite bool_index_app by (now rewrite map_length). rewrite free_idx_cons, map_app, map_map.
  assert (E : map (fun a => map (fun b => nth (a * length mj + b) w zero) (free_idx mj)) (free_idx mi) =
    map (fun a => map (fun b => nth (S a * length mj + b) (u ++ w) zero) (free_idx mj)) (free_idx mi)).
  { apply map_ext. intros a. apply map_ext. intros b. rewrite (app_nth2 u w) by lia.
    f_equal. lia. }
  destruct m0.
  - rewrite (bool_index_false (fun b => negb true && negb b)) by reflexivity. cbn [app map].
    rewrite map_length. rewrite IH by auto. exact E.
  - cbn [negb andb]. rewrite (bool_index_free zero) by auto. cbn [app map length chunk].
    rewrite map_length. f_equal.
    + rewrite firstn_app_len by (now rewrite map_length). apply map_ext_in. intros b Hb.
      apply in_free_idx_lt in Hb. cbn [Nat.mul Nat.add]. now rewrite app_nth1 by lia.
    + rewrite skipn_app_len by (now rewrite map_length). rewrite IH by auto. exact E.
Qed.

Lemma p_count_free (p : param A) : p_count p = length (free_idx (p_mask p)).
Proof. symmetry. apply free_idx_length. Qed.

Lemma cut_block_spec pi pj v : length v = length (p_mask pi) * length (p_mask pj) ->
  cut_block A pi pj v =
  Ok (map (fun a => map (fun b => nth (a * length (p_mask pj) + b) v zero) (free_idx (p_mask pj))) (free_idx (p_mask pi))).
Proof.
  intros H. unfold cut_block. rewrite outer_mask_length, H, Nat.eqb_refl.
  rewrite !p_count_free. now rewrite cut_rows.
Qed.

Lemma transpose_table {X Y} (f : X -> Y -> A) (l : list X) (l' : list Y) :
  transpose A zero (length l') (map (fun x => map (f x) l') l) = map (fun y => map (fun x => f x y) l) l'.
Proof.
  unfold transpose. destruct l' as [|y0 l'']; [reflexivity|]. set (l' := y0 :: l''). 
  transitivity (map (fun y => map (fun x => f x y) l) (map (fun k => nth k l' y0) (seq 0 (length l')))).
  2:{ now rewrite map_nth_seq. } rewrite map_map. apply map_ext_in. intros c Hc. apply in_seq in Hc.
  rewrite map_map. apply map_ext. intros x. apply nth_map_lt. lia.
Qed.

Lemma hstack_table {I X Y} (rows : list X) (js : list I) (cols : I -> list Y) (f : X -> I -> Y -> A) :
  hstack A (length rows) (map (fun j => map (fun x => map (f x j) (cols j)) rows) js) =
  map (fun x => concat (map (fun j => map (f x j) (cols j)) js)) rows.
Proof.
  unfold hstack. destruct rows as [|x0 rows']; [reflexivity|]. set (rows := x0 :: rows').
  transitivity (map (fun x => concat (map (fun j => map (f x j) (cols j)) js)) (map (fun k => nth k rows x0) (seq 0 (length rows)))).
  2:{ now rewrite map_nth_seq. } rewrite map_map. apply map_ext_in. intros r Hr. apply in_seq in Hr.
  f_equal. rewrite map_map. apply map_ext. intros j.
  apply (nth_map_lt (fun x => map (f x j) (cols j))). lia.
Qed.

Lemma combine_seq_map {X Y} (F : nat -> X -> Y) (l : list X) d : forall s,
  map (fun '(i, x) => F i x) (combine (seq s (length l)) l) = map (fun i => F (s + i) (nth i l d)) (seq 0 (length l)).
Proof.
  induction l as [|x l IH]; intros s; [reflexivity|]. cbn [length seq combine map nth]. f_equal.
  - now rewrite Nat.add_0_r.
  - rewrite IH, <- seq_shift, map_map. apply map_ext. intros i. f_equal. lia.
Qed.

Lemma combine_seq_in {X} (l : list X) d i x n : In (i, x) (combine (seq 0 n) l) -> n <= length l ->
  i < n /\ x = nth i l d.
Proof.
  intros H Hn. destruct (In_nth _ _ (0, d) H) as (k & Hk & E). rewrite combine_length, seq_length in Hk.
  assert (Hkn : k < n) by lia.
  assert (Ek : nth_error (combine (seq 0 n) l) k = Some (k, nth k l d)).
  { clear -Hkn Hn. assert (G : forall n s (l : list X) k, k < n -> n <= length l ->
      nth_error (combine (seq s n) l) k = Some (s + k, nth k l d)).
    { induction n0 as [|n0 IH]; intros s l0 k0 H1 H2; [lia|]. destruct l0 as [|y l0]; cbn in H2; [lia|].
      destruct k0 as [|k0]; cbn [seq combine nth_error nth]; [f_equal; f_equal; lia|].
      rewrite IH by lia. f_equal. f_equal. lia. }
    rewrite G by auto. reflexivity. }
  apply (nth_error_nth _ _ (0, d)) in Ek. rewrite Ek in E. injection E as <- <-. auto.
Qed.

Lemma combine_seq_firstn {X Y} (F : nat -> X -> Y) (l : list X) d n : n <= length l ->
  map (fun '(i, x) => F i x) (combine (seq 0 n) l) = map (fun i => F i (nth i l d)) (seq 0 n).
Proof.
  assert (G : forall n s (l : list X), n <= length l ->
     map (fun '(i, x) => F i x) (combine (seq s n) l) = map (fun i => F (s + i) (nth i l d)) (seq 0 n)).
  { induction n0 as [|n0 IH]; intros s l0 H; [reflexivity|]. destruct l0 as [|x l0]; cbn in H; [lia|].
    cbn [seq combine map nth]. f_equal; [f_equal; lia|]. rewrite IH by lia. rewrite <- seq_shift, map_map.
    apply map_ext. intros i. f_equal. lia. }
  intros H. now rewrite G.
Qed.

Lemma combine_maps {X} (f g : X -> list A) l :
  map (fun '(row, col) => row ++ col) (combine (map f l) (map g l)) = map (fun x => f x ++ g x) l.
Proof. induction l as [|x l IH]; cbn; congruence. Qed.

Definition nofun : sfunc A := Build_sfunc A (fun _ => Raise TypeError) (fun _ => Raise TypeError) (fun _ => Raise TypeError).

(** The assembled matrix. *)
Definition assembled ps hlike (cs rs : list (list nat * sfunc A)) : list (list A) :=
  map (fun ia => map (full_hess zero add sub ps hlike rs ia) (free_coords ps) ++
                 map (fun c => dfun zero add ps c (fst ia) (snd ia)) cs) (free_coords ps) ++
  map (fun c => map (fun jb => dfun zero add ps c (fst jb) (snd jb)) (free_coords ps) ++
                repeat zero (length cs)) cs.

Lemma flat_hess_spec ps hlike cs rs :
  ps <> [] -> hess_shaped ps hlike -> Forall (registered ps) cs -> Forall (registered ps) rs ->
  (Forall (fun c => ascending (fst c)) (cs ++ rs) /\
   flat_hess A zero add sub mul ps hlike cs rs = Ok (assembled ps hlike cs rs)) \/
  (Exists (fun c => ~ ascending (fst c)) (cs ++ rs) /\
   flat_hess A zero add sub mul ps hlike cs rs = Raise IndexError).
Proof.
  intros Hne Hh Hcs Hrs. unfold flat_hess.
  destruct (flat_hess_con_spec ps cs hlike Hh Hcs) as [(Ha1 & h1 & hcs & E1 & Hh1 & Hn1 & Hlc & Hsc & Hnc)|(E1 & Hex)];
    rewrite E1; cbn [rbind].
  2:{ right. split; auto. apply Exists_app; auto. }
  destruct (flat_hess_reg_spec ps rs h1 Hh1 Hrs) as [(Ha2 & h2 & E2 & Hh2 & Hn2)|(E2 & Hex)];
    rewrite E2; cbn [rbind].
  2:{ right. split; auto. apply Exists_app; auto. }
  left. split; [apply Forall_app; auto|].
  set (N := length ps). set (fi := fun i => free_idx (p_mask (nth i ps noparam))).
  set (P := fun i a j b => pen_hess zero add sub ps hlike rs i a j b).
  (* lower blocks *)
  set (lower := map (fun i => map (fun j => map (fun a => map (fun b => P i a j b) (fi j)) (fi i)) (seq 0 (S i))) (seq 0 N)).
  assert (EL : rmapM (fun '(i, pi) =>
      let! row := nth_res h2 i in
      rmapM (fun '(j, pj) => let! v := nth_res row j in cut_block A pi pj v)
            (combine (seq 0 (S i)) ps)) (combine (seq 0 N) ps) = Ok lower).
  { unfold lower. rewrite (rmapM_all_ok _ (fun '(i, pi) => map (fun j => map (fun a => map (fun b => P i a j b) (fi j)) (fi i)) (seq 0 (S i)))).
    - f_equal. rewrite (combine_seq_map (fun i (_ : param A) => map (fun j => map (fun a => map (fun b => P i a j b) (fi j)) (fi i)) (seq 0 (S i))) ps noparam). reflexivity.
    - intros [i pi] Hin. apply combine_seq_in with (d := noparam) in Hin; [|lia]. destruct Hin as [Hi ->].
      destruct Hh2 as [HN2 Hs2]. destruct (Hs2 i Hi) as [Hrl Hrb].
      rewrite (nth_res_ok h2 i []) by (fold N in HN2; lia). cbn [rbind].
      rewrite (rmapM_all_ok _ (fun '(j, pj) => map (fun a => map (fun b => P i a j b) (fi j)) (fi i))).
      + f_equal. rewrite (combine_seq_firstn (fun j (_ : param A) => map (fun a => map (fun b => P i a j b) (fi j)) (fi i)) ps noparam) by (fold N; lia). reflexivity.
      + intros [j pj] Hin. apply combine_seq_in with (d := noparam) in Hin; [|fold N; lia]. destruct Hin as [Hj ->].
        rewrite (nth_res_ok _ j []) by lia. cbn [rbind].
        rewrite cut_block_spec.
        2:{ rewrite Hrb by lia. reflexivity. }
        f_equal. fold (fi i) (fi j). apply map_ext_in. intros a Hia. apply map_ext_in. intros b Hjb.
        apply in_free_idx_lt in Hia, Hjb. unfold P, pen_hess.
        change (length (p_mask (nth j ps noparam))) with (size_of ps j) in *.
        change (length (p_mask (nth i ps noparam))) with (size_of ps i) in *.
        fold (get3 h2 i j (a * size_of ps j + b)).
        rewrite Hn2, Hn1; auto; try lia; unfold hsz; nia. }
  rewrite EL. cbn [rbind].
  assert (EB : forall i j, i < N -> j <= i -> nth j (nth i lower []) [] = map (fun a => map (fun b => P i a j b) (fi j)) (fi i)).
  { intros i j Hi Hj. unfold lower. rewrite nth_map_seq by auto. rewrite nth_map_seq by lia. reflexivity. }
  assert (EC : rmapM (fun rowc => rmapM (fun '(d, p) => mask_free A p d) (combine rowc ps)) hcs =
     Ok (map (fun rowc => map (fun i => map (fun a => nth a (nth i rowc []) zero) (fi i)) (seq 0 N)) hcs)).
  { apply rmapM_all_ok. intros rowc Hin. rewrite Forall_forall in Hsc. apply mask_rows. apply Hsc, Hin. }
  rewrite EC. cbn [rbind].
  (* full blocks *)
  cbv zeta.
  set (full := map _ (seq 0 N)).
  assert (EF : full = map (fun i => map (fun j => map (fun a => map (fun b => full_hess zero add sub ps hlike rs (i, a) (j, b)) (fi j)) (fi i)) (seq 0 N)) (seq 0 N)).
  { unfold full. apply map_ext_in. intros i Hi. apply in_seq in Hi.
    replace (seq 0 N) with (seq 0 i ++ seq i (N - i)) by (rewrite <- seq_app; f_equal; lia).
    rewrite map_app. f_equal.
    - apply map_ext_in. intros j Hj. apply in_seq in Hj. rewrite EB by lia.
      apply map_ext. intros a. apply map_ext. intros b. unfold full_hess.
      replace (j <? i) with true by (symmetry; apply Nat.ltb_lt; lia). reflexivity.
    - apply map_ext_in. intros j Hj. apply in_seq in Hj. rewrite EB by lia.
      fold (@noparam A). rewrite p_count_free. fold (fi i).
      rewrite (transpose_table (fun a b => P j a i b)).
      apply map_ext. intros a. apply map_ext. intros b. unfold full_hess.
      replace (j <? i) with false by (symmetry; apply Nat.ltb_ge; lia). reflexivity. }
  match goal with |- context [concat (map (fun '(i, brow) => hstack _ _ brow) ?c)] =>
    assert (ET : concat (map (fun '(i, brow) => hstack A (p_count (nth i ps noparam)) brow) c) =
      map (fun ia => map (full_hess zero add sub ps hlike rs ia) (free_coords ps)) (free_coords ps)) end.
  { rewrite map_free_coords. f_equal. fold N fi.
    assert (Hlf : length full = N) by (unfold full; now rewrite map_length, seq_length).
    replace (combine (seq 0 N) full) with (combine (seq 0 (length full)) full) by (now rewrite Hlf).
    rewrite (combine_seq_map (fun i brow => hstack A (p_count (nth i ps noparam)) brow) full []).
    rewrite Hlf. apply map_ext_in. intros i Hi. apply in_seq in Hi.
    cbn [Nat.add]. rewrite EF, nth_map_seq by lia. rewrite p_count_free. fold (fi i).
    rewrite (hstack_table (fi i) (seq 0 N) fi (fun a j b => full_hess zero add sub ps hlike rs (i, a) (j, b))).
    apply map_ext. intros a. rewrite map_free_coords. reflexivity. }
  fold (@noparam A). rewrite ET.
  destruct ps as [|p0 ps0]; [congruence|]. fold N. set (ps := p0 :: ps0) in *. f_equal. unfold assembled.
  assert (EcC : map (@concat A) (map (fun rowc => map (fun i => map (fun a => nth a (nth i rowc []) zero) (fi i)) (seq 0 N)) hcs) =
          map (fun c => map (fun jb => dfun zero add ps c (fst jb) (snd jb)) (free_coords ps)) cs).
  { rewrite map_map. rewrite <- (map_nth_seq hcs []), <- (map_nth_seq cs ([], nofun)) at 1. rewrite !map_map.
    rewrite Hlc. apply map_ext_in. intros n Hn. apply in_seq in Hn.
    rewrite map_free_coords. f_equal. fold N fi. apply map_ext_in. intros i Hi. apply in_seq in Hi.
    apply map_ext_in. intros a Ha. apply in_free_idx_lt in Ha. cbn [fst snd]. apply Hnc; auto; lia. }
  destruct cs as [|c0 cs0].
  - cbn [map app]. rewrite app_nil_r. apply map_ext. intros ia. now rewrite app_nil_r.
  - set (cs := c0 :: cs0) in *. cbv zeta. rewrite EcC. f_equal.
    + rewrite map_length. rewrite (transpose_table (fun c jb => dfun zero add ps c (fst jb) (snd jb))).
      apply combine_maps.
    + rewrite map_map. reflexivity.
Qed.

Definition symmetric (M : list (list A)) : Prop :=
  forall r c, nth c (nth r M []) zero = nth r (nth c M []) zero.

Lemma full_hess_sym ps hlike rs : 
  (forall i a b, i < length ps -> a < size_of ps i -> b < size_of ps i ->
     pen_hess zero add sub ps hlike rs i a i b = pen_hess zero add sub ps hlike rs i b i a) ->
  forall x y, In x (free_coords ps) -> In y (free_coords ps) ->
    full_hess zero add sub ps hlike rs x y = full_hess zero add sub ps hlike rs y x.
Proof.
  intros H [i a] [j b] Hx Hy. apply in_free_coords in Hx, Hy. unfold full_hess.
  destruct (Nat.ltb_spec j i), (Nat.ltb_spec i j); try lia; auto.
  assert (i = j) by lia. subst j. now apply H.
Qed.

Lemma assembled_sym ps hlike cs rs :
  (forall i a b, i < length ps -> a < size_of ps i -> b < size_of ps i ->
     pen_hess zero add sub ps hlike rs i a i b = pen_hess zero add sub ps hlike rs i b i a) ->
  symmetric (assembled ps hlike cs rs).
Proof.
  intros H. pose proof (full_hess_sym ps hlike rs H) as Hf. unfold assembled.
  set (FC := free_coords ps) in *. set (f := full_hess zero add sub ps hlike rs) in *.
  set (g := fun c (jb : nat * nat) => dfun zero add ps c (fst jb) (snd jb)).
  set (F := length FC). set (K := length cs).
  set (Mx := map (fun ia => map (f ia) FC ++ map (fun c => g c ia) cs) FC ++ map (fun c => map (g c) FC ++ repeat zero K) cs).
  change (symmetric Mx).
  assert (E1 : forall r, r < F -> nth r Mx [] =
     map (f (nth r FC (0,0))) FC ++ map (fun c => g c (nth r FC (0,0))) cs).
  { intros r Hr. unfold Mx. rewrite app_nth1 by (rewrite map_length; auto). now apply (nth_map_lt (fun ia => map (f ia) FC ++ map (fun c => g c ia) cs)). }
  assert (E2 : forall r, F <= r < F + K -> nth r Mx [] =
     map (g (nth (r - F) cs ([], nofun))) FC ++ repeat zero K).
  { intros r Hr. unfold Mx. rewrite app_nth2 by (rewrite map_length; fold F; lia). rewrite map_length. fold F.
    rewrite nth_map_lt with (d := ([], nofun)) by (fold K; lia). reflexivity. }
  assert (E3 : forall r, F + K <= r -> nth r Mx [] = []).
  { intros r Hr. unfold Mx. apply nth_overflow. rewrite app_length, !map_length. fold F K. lia. }
  assert (Z : forall n, nth n (@nil A) zero = zero) by (destruct n; reflexivity).
  assert (Hlen : forall r n, F + K <= n -> nth n (nth r Mx []) zero = zero).
  { intros r n Hn. destruct (le_lt_dec (F + K) r); [rewrite E3 by lia; apply Z|].
    destruct (le_lt_dec F r).
    - rewrite E2 by lia. apply nth_overflow. rewrite app_length, map_length, repeat_length. fold F; lia.
    - rewrite E1 by lia. apply nth_overflow. rewrite app_length, !map_length. fold F K; lia. }
  intros r c.
  destruct (le_lt_dec (F + K) r) as [Hr|Hr]; [rewrite E3 by lia; rewrite Hlen by lia; apply Z|].
  destruct (le_lt_dec (F + K) c) as [Hc|Hc]; [rewrite (E3 c) by lia; rewrite Hlen by lia; symmetry; apply Z|].
  destruct (le_lt_dec F r) as [Hr'|Hr'], (le_lt_dec F c) as [Hc'|Hc'].
  - rewrite (E2 r), (E2 c) by lia. rewrite !app_nth2 by (rewrite map_length; fold F; lia).
    rewrite !map_length. fold F. rewrite !nth_repeat_len by lia. reflexivity.
  - rewrite (E2 r), (E1 c) by lia. rewrite app_nth1 by (rewrite map_length; fold F; lia).
    rewrite app_nth2 by (rewrite map_length; fold F; lia). rewrite map_length. fold F.
    rewrite nth_map_lt with (d := (0,0)) by (fold F; lia).
    rewrite nth_map_lt with (d := ([], nofun)) by (fold K; lia). reflexivity.
  - rewrite (E2 c), (E1 r) by lia. rewrite (app_nth1 _ (repeat zero K)) by (rewrite map_length; fold F; lia).
    rewrite app_nth2 by (rewrite map_length; fold F; lia). rewrite map_length. fold F.
    rewrite nth_map_lt with (d := ([], nofun)) by (fold K; lia).
    rewrite nth_map_lt with (d := (0,0)) by (fold F; lia). reflexivity.
  - rewrite (E1 r), (E1 c) by lia. rewrite !app_nth1 by (rewrite map_length; fold F; lia).
    rewrite !nth_map_lt with (d := (0,0)) by (fold F; lia).
    apply Hf; apply nth_In; fold F; lia.
Qed.
End P.

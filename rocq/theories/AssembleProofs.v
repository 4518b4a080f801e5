(** Proofs about the assembled gradient and Hessian. *)
From Coq Require Import Ring_theory Ring.
From Verif Require Import Prelude ParamModel ParamProofs AssembleModel AssembleSpec.

Lemma nth_res_ok {X} (l : list X) n d : n < length l -> nth_res l n = Ok (nth n l d).
Proof. intros H. unfold nth_res. now rewrite (nth_error_nth' l d H). Qed.
Lemma nth_res_bad {X} (l : list X) n : length l <= n -> nth_res l n = Raise IndexError.
Proof. intros H. unfold nth_res. now apply nth_error_None in H as ->. Qed.

Lemma nth_upd_nth_eq {X} n (x d : X) l : n < length l -> nth n (upd_nth n x l) d = x.
Proof. intros H. apply nth_error_nth. now apply nth_error_upd_nth_eq. Qed.
Lemma nth_upd_nth_neq {X} n m (x d : X) l : n <> m -> nth m (upd_nth n x l) d = nth m l d.
Proof.
  intros H. pose proof (nth_error_upd_nth_neq n m x l H) as E.
  destruct (le_lt_dec (length l) m) as [Hl|Hl].
  - rewrite !nth_overflow; auto. rewrite upd_nth_length; auto.
  - apply nth_error_nth. rewrite E. now apply nth_error_nth'.
Qed.

Lemma nth_map_lt {X Y} (f : X -> Y) l n d d' : n < length l -> nth n (map f l) d' = f (nth n l d).
Proof. intros H. rewrite nth_indep with (d' := f d) by (now rewrite map_length). apply map_nth. Qed.

Lemma nth_map_seq {Y} (f : nat -> Y) n k d : k < n -> nth k (map f (seq 0 n)) d = f k.
Proof. intros H. rewrite nth_map_lt with (d := 0) by (now rewrite seq_length). now rewrite seq_nth. Qed.

Lemma map_nth_seq {X} (l : list X) d : map (fun k => nth k l d) (seq 0 (length l)) = l.
Proof.
  induction l as [|x l IH]; [reflexivity|]. cbn [length seq map nth]. f_equal.
  rewrite <- seq_shift, map_map. exact IH.
Qed.

Lemma occurrences_cons k pm i :
  occurrences (k :: pm) i = (if k =? i then [0] else []) ++ map S (occurrences pm i).
Proof.
  unfold occurrences. cbn [length seq filter].
  assert (E : filter (fun p => nth p (k :: pm) 0 =? i) (seq 1 (length pm)) =
              map S (filter (fun p => nth p pm 0 =? i) (seq 0 (length pm)))).
  { rewrite <- seq_shift. generalize (seq 0 (length pm)). induction l as [|x l IH]; [reflexivity|].
    cbn [map filter]. change (nth (S x) (k :: pm) 0) with (nth x pm 0).
    destruct (nth x pm 0 =? i); cbn [map]; now rewrite IH. }
  change (nth 0 (k :: pm) 0) with k. rewrite E. destruct (k =? i); reflexivity.
Qed.

Lemma in_occurrences pm i p : In p (occurrences pm i) <-> p < length pm /\ nth p pm 0 = i.
Proof.
  unfold occurrences. rewrite filter_In, in_seq, Nat.eqb_eq. split; intros [H1 H2]; split; auto; lia.
Qed.

Section P.
Context {A : Type}.
Variables (zero one : A) (add mul sub : A -> A -> A) (opp : A -> A).
Hypothesis RT : ring_theory zero one add mul sub opp (@eq A).
Add Ring Ar : RT.
Notation entry := (entry zero).
Notation sumA := (sumA zero add).
Notation vec_op := (vec_op A).
Notation acc_grad := (acc_grad A).
Notation acc_hess := (acc_hess A).
Notation upd_at := (upd_at A).

Lemma vec_op_spec op u v n : length u = n -> block_ok n v ->
  exists w, vec_op op u v = Ok w /\ length w = n /\
    forall a, a < n -> nth a w zero = op (nth a u zero) (entry v a).
Proof.
  intros Hu Hv. unfold AssembleModel.vec_op. destruct (Nat.eqb_spec (length u) (length v)) as [E|E].
  - eexists; split; [reflexivity|]. rewrite map_length, combine_length. split; [lia|].
    intros a Ha. rewrite nth_map_lt with (d := (zero, zero)) by (rewrite combine_length; lia).
    rewrite combine_nth by auto. f_equal. unfold AssembleSpec.entry. destruct v as [|y [|z v]]; auto.
    cbn in E. assert (a = 0) by lia. now subst.
  - destruct Hv as [Hv|Hv]; [lia|]. destruct v as [|y [|z v]]; cbn in Hv; try lia.
    eexists; split; [reflexivity|]. rewrite map_length. split; auto. intros a Ha.
    rewrite nth_map_lt with (d := zero) by lia. reflexivity.
Qed.

Definition shaped (N : nat) (sz : nat -> nat) (g : list (list A)) :=
  length g = N /\ forall i, i < N -> length (nth i g []) = sz i.

Lemma upd_at_spec op g k v N sz : shaped N sz g -> k < N -> block_ok (sz k) v ->
  exists g', upd_at op g k v = Ok g' /\ shaped N sz g' /\
   forall i a, i < N -> a < sz i ->
     nth a (nth i g' []) zero =
     if k =? i then op (nth a (nth i g []) zero) (entry v a) else nth a (nth i g []) zero.
Proof.
  intros [HN Hsz] Hk Hb. unfold AssembleModel.upd_at. rewrite (nth_res_ok g k []) by lia. cbn.
  destruct (vec_op_spec op (nth k g []) v (sz k)) as (w & E & Hw & Hn); auto. rewrite E. cbn.
  eexists; split; [reflexivity|]. split.
  - split; [now rewrite upd_nth_length|]. intros i Hi. destruct (Nat.eq_dec k i) as [<-|Hne].
    + now rewrite nth_upd_nth_eq by lia.
    + rewrite nth_upd_nth_neq by auto. auto.
  - intros i a Hi Ha. destruct (Nat.eqb_spec k i) as [<-|Hne].
    + rewrite nth_upd_nth_eq by lia. auto.
    + now rewrite nth_upd_nth_neq by auto.
Qed.

Lemma fold_left_map {X Y Z} (f : Z -> Y -> Z) (h : X -> Y) l : forall z,
  fold_left f (map h l) z = fold_left (fun z x => f z (h x)) l z.
Proof. induction l as [|x l IH]; cbn; auto. Qed.

Lemma acc_grad_spec op N sz : forall pm blocks g,
  shaped N sz g -> Forall (fun k => k < N) pm -> length blocks = length pm ->
  (forall p, p < length pm -> block_ok (sz (nth p pm 0)) (nth p blocks [])) ->
  exists g', acc_grad op g pm blocks = Ok g' /\ shaped N sz g' /\
   forall i a, i < N -> a < sz i ->
     nth a (nth i g' []) zero =
     fold_left (fun acc p => op acc (entry (nth p blocks []) a)) (occurrences pm i)
               (nth a (nth i g []) zero).
Proof.
  induction pm as [|k pm IH]; intros blocks g Hg Hpm Hl Hb.
  - destruct blocks; cbn in Hl; try lia. cbn. eexists; split; [reflexivity|]. split; auto.
  - destruct blocks as [|b blocks]; cbn in Hl; try lia. cbn [AssembleModel.acc_grad].
    inversion Hpm as [|? ? Hk Hpm']; subst.
    destruct (upd_at_spec op g k b N sz) as (g1 & E1 & Hg1 & Hn1); auto.
    { apply (Hb 0). cbn; lia. }
    rewrite E1. cbn [rbind].
    destruct (IH blocks g1) as (g2 & E2 & Hg2 & Hn2); auto.
    { intros p Hp. apply (Hb (S p)). cbn; lia. }
    exists g2. split; auto. split; auto. intros i a Hi Ha. rewrite Hn2, Hn1 by auto.
    rewrite occurrences_cons, fold_left_app, fold_left_map.
    destruct (k =? i); reflexivity.
Qed.

Lemma fold_sub {X} (f : X -> A) l : forall x,
  fold_left (fun acc p => sub acc (f p)) l x = sub x (sumA f l).
Proof.
  induction l as [|y l IH]; intros x; unfold AssembleSpec.sumA in *; cbn; [ring|]. rewrite IH. ring.
Qed.
Lemma fold_add {X} (f : X -> A) l : forall x,
  fold_left (fun acc p => add acc (f p)) l x = add x (sumA f l).
Proof.
  induction l as [|y l IH]; intros x; unfold AssembleSpec.sumA in *; cbn; [ring|]. rewrite IH. ring.
Qed.
Lemma sumA_zero {X} (f : X -> A) l : (forall x, In x l -> f x = zero) -> sumA f l = zero.
Proof.
  induction l as [|y l IH]; intros H; unfold AssembleSpec.sumA in *; cbn; auto.
  rewrite H by (cbn; auto). rewrite IH by (intros; apply H; cbn; auto). ring.
Qed.
Lemma sumA_ext {X} (f g : X -> A) l : (forall x, In x l -> f x = g x) -> sumA f l = sumA g l.
Proof. intros H. unfold AssembleSpec.sumA. f_equal. apply map_ext_in. exact H. Qed.
Lemma sumA_cons {X} (f : X -> A) x l : sumA f (x :: l) = add (f x) (sumA f l).
Proof. reflexivity. Qed.
Lemma sumA_app {X} (f : X -> A) l1 l2 : sumA f (l1 ++ l2) = add (sumA f l1) (sumA f l2).
Proof. induction l1 as [|x l IH]; unfold AssembleSpec.sumA in *; cbn; [ring|]. rewrite IH. ring. Qed.
Lemma sumA_map {X Y} (f : Y -> A) (h : X -> Y) l : sumA f (map h l) = sumA (fun x => f (h x)) l.
Proof. unfold AssembleSpec.sumA. now rewrite map_map. Qed.
Lemma sumA_mul_l {X} (f : X -> A) c l : mul c (sumA f l) = sumA (fun x => mul c (f x)) l.
Proof. induction l as [|x l IH]; unfold AssembleSpec.sumA in *; cbn; [ring|]. rewrite <- IH. ring. Qed.
Lemma sumA_add {X} (f g : X -> A) l : sumA (fun x => add (f x) (g x)) l = add (sumA f l) (sumA g l).
Proof. induction l as [|x l IH]; unfold AssembleSpec.sumA in *; cbn; [ring|]. rewrite IH. ring. Qed.
Lemma sumA_sub {X} (f g : X -> A) l : sumA (fun x => sub (f x) (g x)) l = sub (sumA f l) (sumA g l).
Proof. induction l as [|x l IH]; unfold AssembleSpec.sumA in *; cbn; [ring|]. rewrite IH. ring. Qed.

Lemma pick_ok (ps : list (param A)) pm : Forall (fun k => k < length ps) pm ->
  pick ps pm = Ok (args_of ps pm).
Proof.
  intros H. apply rmapM_all_ok. intros k Hk. apply nth_res_ok. rewrite Forall_forall in H. auto.
Qed.

Lemma entry_map0 v a : entry (map (mul zero) v) a = zero.
Proof.
  unfold AssembleSpec.entry. destruct v as [|x [|y v]]; cbn.
  - destruct a; reflexivity.
  - ring.
  - assert (H : forall l a, nth a (map (mul zero) l) zero = zero).
    { induction l as [|z l IH]; intros [|b]; cbn; auto. ring. }
    specialize (H (x :: y :: v) a). cbn in H. exact H.
Qed.

Lemma grad_shaped_shaped ps g : grad_shaped ps g <-> shaped (length ps) (size_of ps) g.
Proof. reflexivity. Qed.

(** Same entries everywhere. *)
Definition same_entries (N : nat) (sz : nat -> nat) (g g' : list (list A)) :=
  forall i a, i < N -> a < sz i -> nth a (nth i g' []) zero = nth a (nth i g []) zero.

Lemma flat_grad_con_spec ps : forall cs g,
  grad_shaped ps g -> Forall (registered ps) cs ->
  exists g', flat_grad_con A zero add mul ps g cs = Ok (g', map (fun c => Some (fvalue zero ps c)) cs) /\
    grad_shaped ps g' /\ same_entries (length ps) (size_of ps) g g'.
Proof.
  induction cs as [|[pm g0] cs IH]; intros g Hg Hcs.
  - exists g. cbn. repeat split; auto; try apply Hg. 
  - inversion Hcs as [|? ? Hc Hcs']; subst. destruct Hc as (Hne & Hpm & (v & Hv) & (gg & Hgg & Hlg & Hbg) & Hh).
    cbn [fst snd] in *. cbn [flat_grad_con]. rewrite pick_ok by auto. cbn [rbind]. rewrite Hgg. cbn [rbind].
    destruct (acc_grad_spec add (length ps) (size_of ps) pm (map (map (mul zero)) gg) g) as (g1 & E1 & Hg1 & Hn1); auto.
    { now rewrite map_length. }
    { intros p Hp. specialize (Hbg p Hp). unfold block_ok in *. change [] with (map (mul zero) []).
      rewrite map_nth, map_length. exact Hbg. }
    rewrite E1. cbn [rbind]. destruct pm as [|k0 pm0]; [congruence|]. rewrite Hv. cbn [rmap rbind].
    destruct (IH g1) as (g2 & E2 & Hg2 & Hn2); auto. rewrite E2. cbn [rbind].
    exists g2. split; [|split; auto].
    + cbn [map]. assert (Ev : fvalue zero ps (k0 :: pm0, g0) = v)
        by (unfold fvalue; cbn [fst snd]; now rewrite Hv).
      now rewrite Ev.
    + intros i a Hi Ha. rewrite Hn2, Hn1 by auto. rewrite fold_add.
      rewrite sumA_zero; [ring|]. intros p _. change [] with (map (mul zero) []).
      rewrite map_nth. apply entry_map0.
Qed.

Lemma flat_grad_reg_spec ps : forall rs g,
  grad_shaped ps g -> Forall (registered ps) rs ->
  exists g', flat_grad_reg A sub ps g rs = Ok g' /\ grad_shaped ps g' /\
    forall i a, i < length ps -> a < size_of ps i ->
      nth a (nth i g' []) zero = pen_grad zero add sub ps g rs i a.
Proof.
  induction rs as [|[pm h] rs IH]; intros g Hg Hrs.
  - exists g. cbn. repeat split; try apply Hg. intros. unfold pen_grad, AssembleSpec.sumA; cbn. ring.
  - inversion Hrs as [|? ? Hc Hrs']; subst. destruct Hc as (Hne & Hpm & (v & Hv) & (gg & Hgg & Hlg & Hbg) & Hh).
    cbn [fst snd] in *. cbn [flat_grad_reg]. rewrite pick_ok by auto. cbn [rbind]. rewrite Hgg. cbn [rbind].
    destruct (acc_grad_spec sub (length ps) (size_of ps) pm gg g) as (g1 & E1 & Hg1 & Hn1); auto.
    rewrite E1. cbn [rbind].
    destruct (IH g1) as (g2 & E2 & Hg2 & Hn2); auto.
    exists g2. split; auto. split; auto. intros i a Hi Ha. rewrite Hn2 by auto. unfold pen_grad.
    rewrite Hn1 by auto. rewrite fold_sub, sumA_cons.
    assert (E : dfun zero add ps (pm, h) i a = sumA (fun p => entry (nth p gg []) a) (occurrences pm i)).
    { unfold dfun, fgrad. cbn [fst snd]. rewrite Hgg. reflexivity. }
    rewrite E. ring.
Qed.

Lemma free_idx_cons b m : free_idx (b :: m) = (if b then [] else [0]) ++ map S (free_idx m).
Proof.
  unfold free_idx. cbn [length seq filter].
  assert (E : filter (fun a => negb (nth a (b :: m) true)) (seq 1 (length m)) =
              map S (filter (fun a => negb (nth a m true)) (seq 0 (length m)))).
  { rewrite <- seq_shift. generalize (seq 0 (length m)). induction l as [|x l IH]; [reflexivity|].
    cbn [map filter]. change (nth (S x) (b :: m) true) with (nth x m true).
    destruct (nth x m true); cbn [map negb]; now rewrite IH. }
  change (nth 0 (b :: m) true) with b. rewrite E. destruct b; reflexivity.
Qed.

Lemma in_free_idx m a : In a (free_idx m) <-> nth_error m a = Some false.
Proof.
  unfold free_idx. rewrite filter_In, in_seq. split.
  - intros [H1 H2]. rewrite (nth_error_nth' m true) by lia. destruct (nth a m true); cbn in H2; congruence.
  - intros H. pose proof (nth_error_nth m a true H) as E. rewrite E.
    assert (a < length m) by (apply nth_error_Some; congruence).
    split; [lia|reflexivity].
Qed.
Lemma in_free_idx_lt m a : In a (free_idx m) -> a < length m.
Proof. rewrite in_free_idx. intros H. apply nth_error_Some. congruence. Qed.

Lemma free_idx_length m : length (free_idx m) = count_occ bool_dec m false.
Proof.
  induction m as [|b m IH]; [reflexivity|]. rewrite free_idx_cons, app_length, map_length, IH.
  destruct b; cbn; reflexivity.
Qed.

Lemma bool_index_free m : forall (v : list A), length v = length m ->
  bool_index v (map negb m) = map (fun a => nth a v zero) (free_idx m).
Proof.
  induction m as [|b m IH]; intros [|x v] H; cbn in H; try lia; [reflexivity|].
  rewrite free_idx_cons, map_app, map_map. cbn [nth]. cbn [map bool_index].
  rewrite IH by lia. destruct b; reflexivity.
Qed.

Lemma combine_map_seq {X Y Z} (F : X -> Y -> Z) (l : list X) (l' : list Y) d d' :
  length l = length l' ->
  map (fun '(x, y) => F x y) (combine l l') = map (fun i => F (nth i l d) (nth i l' d')) (seq 0 (length l')).
Proof.
  revert l'. induction l as [|x l IH]; intros [|y l'] H; cbn in H; try lia; [reflexivity|].
  cbn [combine map length seq nth]. f_equal. rewrite <- seq_shift, map_map. apply IH. lia.
Qed.

Lemma mask_rows ps g : grad_shaped ps g ->
  rmapM (fun '(d, p) => mask_free A p d) (combine g ps) =
  Ok (map (fun i => map (fun a => nth a (nth i g []) zero) (free_idx (p_mask (nth i ps noparam)))) (seq 0 (length ps))).
Proof.
  intros [HN Hsz].
  rewrite (rmapM_all_ok _ (fun '(d, p) => map (fun a => nth a d zero) (free_idx (p_mask p)))).
  - f_equal. apply (combine_map_seq (fun d p => map (fun a => nth a d zero) (free_idx (p_mask p)))). auto.
  - intros [d p] Hin. destruct (In_nth _ _ ([], noparam) Hin) as (k & Hk & E).
    rewrite combine_length in Hk. rewrite combine_nth in E by auto. injection E as E1 E2.
    assert (H : length d = length (p_mask p)).
    { rewrite <- E1, <- E2. apply Hsz. lia. }
    unfold mask_free. rewrite H, Nat.eqb_refl. f_equal. now apply bool_index_free.
Qed.

Lemma concat_map_flat {X Y} (f : X -> list Y) l : concat (map f l) = flat_map f l.
Proof. now rewrite flat_map_concat_map. Qed.

Lemma map_flat_map {X Y Z} (h : Y -> Z) (f : X -> list Y) l :
  map h (flat_map f l) = flat_map (fun x => map h (f x)) l.
Proof. induction l as [|x l IH]; cbn; auto. now rewrite map_app, IH. Qed.

Lemma flat_map_ext_in {X Y} (f g : X -> list Y) l : (forall x, In x l -> f x = g x) -> flat_map f l = flat_map g l.
Proof. induction l as [|x l IH]; cbn; intros H; auto. rewrite H, IH; auto. Qed.

Lemma map_free_coords {Y} (ps : list (param A)) (h : nat * nat -> Y) :
  map h (free_coords ps) =
  concat (map (fun i => map (fun a => h (i, a)) (free_idx (p_mask (nth i ps noparam)))) (seq 0 (length ps))).
Proof.
  unfold free_coords. rewrite map_flat_map, concat_map_flat. apply flat_map_ext_in.
  intros i _. now rewrite map_map.
Qed.

Lemma in_free_coords (ps : list (param A)) i a :
  In (i, a) (free_coords ps) -> i < length ps /\ a < size_of ps i.
Proof.
  unfold free_coords. rewrite in_flat_map. intros (j & Hj & H). apply in_seq in Hj.
  apply in_map_iff in H. destruct H as (b & E & Hb). injection E as <- <-.
  split; [lia|]. now apply in_free_idx_lt.
Qed.

Lemma flat_grad_spec ps glike cs rs :
  ps <> [] -> grad_shaped ps glike -> Forall (registered ps) cs -> Forall (registered ps) rs ->
  flat_grad A zero add sub mul ps glike cs rs =
  Ok (map (fun '(i, a) => pen_grad zero add sub ps glike rs i a) (free_coords ps) ++ map (fvalue zero ps) cs).
Proof.
  intros Hne Hg Hcs Hrs. unfold flat_grad.
  destruct (flat_grad_con_spec ps cs glike Hg Hcs) as (g1 & E1 & Hg1 & Hn1). rewrite E1. cbn [rbind].
  destruct (flat_grad_reg_spec ps rs g1 Hg1 Hrs) as (g2 & E2 & Hg2 & Hn2). rewrite E2. cbn [rbind].
  rewrite mask_rows by auto. cbn [rbind].
  rewrite (rmapM_all_ok _ (fun o => match o with Some x => [x] | None => [] end)).
  2:{ intros o Ho. apply in_map_iff in Ho. destruct Ho as (c & <- & _). reflexivity. }
  cbn [rbind]. rewrite map_map.
  unfold np_concatenate.
  assert (Hz : seq 0 (length ps) <> []) by (destruct ps; [congruence|discriminate]).
  match goal with |- match ?l with _ => _ end = _ => assert (Hl : l <> []) end.
  { destruct (seq 0 (length ps)); [congruence|]. cbn. discriminate. }
  match goal with |- match ?l with _ => _ end = _ => replace (match l with [] => Raise ValueError | _ => Ok (concat l) end) with (Ok (concat l)) by (destruct l; [congruence|reflexivity]) end.
  f_equal. rewrite concat_app. f_equal.
  - rewrite map_free_coords. f_equal. apply map_ext_in. intros i Hi. apply in_seq in Hi.
    apply map_ext_in. intros a Ha. apply in_free_idx_lt in Ha. rewrite Hn2 by (unfold size_of; lia || auto).
    unfold pen_grad. now rewrite Hn1 by (unfold size_of; lia || auto).
  - induction cs as [|c cs IH]; [reflexivity|]. cbn. f_equal. clear -Hcs.
    assert (forall l, concat (map (fun x => [fvalue zero ps x]) l) = map (fvalue zero ps) l) as H.
    { induction l as [|x l IH]; cbn; congruence. }
    apply H.
Qed.

Lemma flat_grad_empty_map ps glike cs1 cs2 rs g :
  ps <> [] -> grad_shaped ps glike -> Forall (registered ps) (cs1 ++ cs2) -> Forall (registered ps) rs ->
  (exists gg, sf_grad g [] = Ok gg) ->
  flat_grad A zero add sub mul ps glike (cs1 ++ ([], g) :: cs2) rs = Raise ValueError.
Proof.
  intros Hne Hg Hcs Hrs (gg & Hgg). apply Forall_app in Hcs. destruct Hcs as [Hc1 Hc2].
  unfold flat_grad.
  assert (HX : forall cs1 g0, grad_shaped ps g0 -> Forall (registered ps) cs1 ->
     exists g1, flat_grad_con A zero add mul ps g0 (cs1 ++ ([], g) :: cs2) =
       Ok (g1, map (fun c => Some (fvalue zero ps c)) cs1 ++ None :: map (fun c => Some (fvalue zero ps c)) cs2)
       /\ grad_shaped ps g1).
  { clear cs1 Hc1 glike Hg. induction cs1 as [|[pm f] cs1 IH]; intros g0 Hg Hc1.
    - cbn [app flat_grad_con]. cbn [pick rmapM rbind]. unfold pick. cbn [rmapM rbind]. rewrite Hgg. cbn [rbind AssembleModel.acc_grad].
      destruct (flat_grad_con_spec ps cs2 g0 Hg Hc2) as (g1 & E1 & Hg1 & _). rewrite E1. cbn. eauto.
    - inversion Hc1 as [|? ? Hc Hc1']; subst.
      destruct Hc as (Hne' & Hpm & (v & Hv) & (gf & Hgf & Hlg & Hbg) & Hh). cbn [fst snd] in *.
      cbn [app flat_grad_con]. rewrite pick_ok by auto. cbn [rbind]. rewrite Hgf. cbn [rbind].
      destruct (acc_grad_spec add (length ps) (size_of ps) pm (map (map (mul zero)) gf) g0) as (g1 & E1 & Hg1 & _); auto.
      { now rewrite map_length. }
      { intros p Hp. specialize (Hbg p Hp). unfold block_ok in *. change [] with (map (mul zero) []).
        rewrite map_nth, map_length. exact Hbg. }
      rewrite E1. cbn [rbind]. destruct pm as [|k0 pm0]; [congruence|]. rewrite Hv. cbn [rmap rbind].
      destruct (IH g1) as (g2 & E2 & Hg2); auto. rewrite E2. cbn [rbind].
      exists g2. split; auto. cbn [map app].
      assert (Ev : fvalue zero ps (k0 :: pm0, f) = v)
        by (unfold fvalue; cbn [fst snd]; now rewrite Hv).
      now rewrite Ev. }
  destruct (HX cs1 glike Hg Hc1) as (g1 & E1 & Hg1). rewrite E1. cbn [rbind].
  destruct (flat_grad_reg_spec ps rs g1 Hg1 Hrs) as (g2 & E2 & Hg2 & _). rewrite E2. cbn [rbind].
  rewrite mask_rows by auto. cbn [rbind].
  assert (HR : forall cs1, rmapM (fun o : option A => match o with Some x => Ok [x] | None => Raise ValueError end)
     (map (fun c => Some (fvalue zero ps c)) cs1 ++ None :: map (fun c => Some (fvalue zero ps c)) cs2) = Raise ValueError).
  { induction cs0 as [|c cs0 IH]; cbn; auto. rewrite IH. reflexivity. }
  rewrite HR. reflexivity.
Qed.
End P.

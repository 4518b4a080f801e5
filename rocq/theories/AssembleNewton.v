(** Linear constraints and the Newton step (C11). *)
From Coq Require Import Ring_theory Ring.
From Verif Require Import Prelude ParamModel ParamProofs ParamSpec ParamPropProofs AssembleModel AssembleSpec AssembleProofs AssembleHess.

Section P.
Context {A : Type}.
Variables (zero one : A) (add mul sub : A -> A -> A) (opp : A -> A).
Notation sumA := (sumA zero add).

(** Matrix times vector. *)
Definition dotp (u v : list A) : A := sumA (fun xy => mul (fst xy) (snd xy)) (combine u v).
Definition mat_vec (M : list (list A)) (x : list A) : list A := map (fun row => dotp row x) M.

(** An affine function of all the entries of its arguments:
    value c0 + sum_p sum_a coef[p][a] * args[p][a], gradient coef. *)
Definition linear_fun (g : sfunc A) (c0 : A) (coef : list (list A)) : Prop :=
  forall args, length args = length coef ->
    (forall p, p < length coef -> length (p_vals (nth p args noparam)) = length (nth p coef [])) ->
    sf_val g args =
      Ok (add c0 (sumA (fun p => dotp (nth p coef []) (p_vals (nth p args noparam))) (seq 0 (length coef)))) /\
    sf_grad g args = Ok coef.

(** [flat - mult * step] (maxlike_base.py:487). *)
Definition move (flat : list A) (m : A) (step : list A) : list A :=
  map (fun xy => sub (fst xy) (mul m (snd xy))) (combine flat step).

Hypothesis RT : ring_theory zero one add mul sub opp (@eq A).
Add Ring Ar3 : RT.
Notation sum_add := (sumA_add zero one add mul sub opp RT).
Notation sum_app := (sumA_app zero one add mul sub opp RT).
Notation sum_mul := (sumA_mul_l zero one add mul sub opp RT).
Notation sum_zero := (sumA_zero zero one add mul sub opp RT).

Lemma dotp_cons x u y v : dotp (x :: u) (y :: v) = add (mul x y) (dotp u v).
Proof. reflexivity. Qed.

Lemma dotp_seq u : forall v, length u = length v ->
  dotp u v = sumA (fun a => mul (nth a u zero) (nth a v zero)) (seq 0 (length u)).
Proof.
  induction u as [|x u IH]; intros [|y v] H; cbn in H; try lia; [reflexivity|].
  rewrite dotp_cons. cbn [length seq]. rewrite sumA_cons. cbn [nth]. f_equal.
  rewrite <- seq_shift, sumA_map. apply IH. lia.
Qed.
Lemma dotp_maps {X} (f g : X -> A) l : dotp (map f l) (map g l) = sumA (fun x => mul (f x) (g x)) l.
Proof. induction l as [|x l IH]; [reflexivity|]. cbn [map]. rewrite dotp_cons, IH. reflexivity. Qed.
Lemma dotp_firstn u v : dotp u (firstn (length u) v) = dotp u v.
Proof.
  revert v. induction u as [|x u IH]; intros [|y v]; try reflexivity. cbn [length firstn].
  now rewrite !dotp_cons, IH.
Qed.
Lemma dotp_app_zero u n v : dotp (u ++ repeat zero n) v = dotp u v.
Proof.
  revert v. induction u as [|x u IH]; intros v.
  - cbn [app]. unfold dotp at 2. cbn. unfold dotp. apply sum_zero. intros [a b] H.
    apply in_combine_l, repeat_spec in H. cbn. subst a. ring.
  - destruct v as [|y v]; [reflexivity|]. cbn [app]. now rewrite !dotp_cons, IH.
Qed.
Lemma dotp_move u : forall flat m s, length flat = length u -> length s = length u ->
  dotp u (move flat m s) = sub (dotp u flat) (mul m (dotp u s)).
Proof.
  induction u as [|x u IH]; intros [|y flat] m [|z s] H1 H2; cbn in H1, H2; try lia.
  - unfold dotp, AssembleSpec.sumA; cbn. ring.
  - unfold move. cbn [combine map fst snd]. rewrite !dotp_cons. fold (move flat m s).
    rewrite IH by lia. ring.
Qed.

(** Sum over arguments = sum over parameters of the occurrences. *)
Lemma sum_single N k (F : nat -> A) : k < N -> sumA (fun i => if k =? i then F i else zero) (seq 0 N) = F k.
Proof.
  intros H. replace N with (k + (1 + (N - k - 1))) by lia. rewrite seq_app, sum_app. cbn [Nat.add seq].
  rewrite sumA_cons, Nat.eqb_refl. rewrite !sum_zero; [ring| |].
  - intros i Hi. apply in_seq in Hi. destruct (Nat.eqb_spec k i); auto; lia.
  - intros i Hi. apply in_seq in Hi. destruct (Nat.eqb_spec k i); auto; lia.
Qed.

Lemma sum_by_occ N pm : forall (F : nat -> nat -> A), Forall (fun k => k < N) pm ->
  sumA (fun p => F p (nth p pm 0)) (seq 0 (length pm)) =
  sumA (fun i => sumA (fun p => F p i) (occurrences pm i)) (seq 0 N).
Proof.
  induction pm as [|k pm IH]; intros F H.
  - cbn [length seq]. symmetry. apply sum_zero. intros. reflexivity.
  - inversion H as [|? ? Hk H']; subst. cbn [length seq]. rewrite sumA_cons. change (nth 0 (k :: pm) 0) with k.
    rewrite <- seq_shift, sumA_map.
    change (fun x => F (S x) (nth (S x) (k :: pm) 0)) with (fun x => F (S x) (nth x pm 0)).
    rewrite (IH (fun p i => F (S p) i)) by auto.
    rewrite (sumA_ext zero add (fun i => sumA (fun p => F p i) (occurrences (k :: pm) i))
       (fun i => add (if k =? i then F 0 i else zero) (sumA (fun p => F (S p) i) (occurrences pm i)))).
    2:{ intros i _. rewrite occurrences_cons, sum_app, sumA_map. f_equal.
        destruct (k =? i); [|reflexivity]. rewrite sumA_cons. unfold AssembleSpec.sumA; cbn. ring. }
    rewrite sum_add. rewrite (sum_single N k (fun i => F 0 i)) by auto. reflexivity.
Qed.

Lemma sum_swap {X Y} (f : X -> Y -> A) l l' :
  sumA (fun x => sumA (fun y => f x y) l') l = sumA (fun y => sumA (fun x => f x y) l) l'.
Proof.
  induction l as [|x l IH].
  - symmetry. apply sum_zero. reflexivity.
  - rewrite sumA_cons, IH. rewrite <- sum_add. apply sumA_ext. intros y _. now rewrite sumA_cons.
Qed.

Lemma sum_flat_map {X Y} (f : Y -> A) (h : X -> list Y) l :
  sumA f (flat_map h l) = sumA (fun x => sumA f (h x)) l.
Proof. induction l as [|x l IH]; [reflexivity|]. cbn [flat_map]. rewrite sum_app, sumA_cons, IH. reflexivity. Qed.

Definition fixed_idx (m : list bool) : list nat := filter (fun a => nth a m true) (seq 0 (length m)).

Lemma sum_split_free (m : list bool) (f : nat -> A) :
  sumA f (seq 0 (length m)) = add (sumA f (free_idx m)) (sumA f (fixed_idx m)).
Proof.
  unfold free_idx, fixed_idx. induction (seq 0 (length m)) as [|x l IH].
  - unfold AssembleSpec.sumA; cbn. ring.
  - cbn [filter]. rewrite sumA_cons, IH. destruct (nth x m true); cbn [negb]; rewrite sumA_cons; ring.
Qed.

(** Entry [a] of parameter [i]. *)
Definition pval (ps : list (param A)) (ia : nat * nat) : A := nth (snd ia) (p_vals (nth (fst ia) ps noparam)) zero.

Lemma free_entries_coords ps : Forall param_wf ps -> free_entries ps = map (pval ps) (free_coords ps).
Proof.
  intros Hwf. rewrite map_free_coords. unfold free_entries. f_equal.
  rewrite <- (map_nth_seq ps noparam) at 1. rewrite map_map. apply map_ext_in. intros i Hi. apply in_seq in Hi.
  rewrite entries_free. unfold compressed. apply (bool_index_free zero).
  rewrite Forall_forall in Hwf. destruct (Hwf (nth i ps noparam)) as [H1 H2]; [apply nth_In; lia|]. congruence.
Qed.

Lemma free_coords_masks (ps qs : list (param A)) : map p_mask qs = map p_mask ps -> free_coords qs = free_coords ps.
Proof.
  intros H. assert (HL : length qs = length ps) by (rewrite <- (map_length p_mask qs), H; apply map_length).
  unfold free_coords. rewrite HL. apply flat_map_ext_in. intros i _. f_equal. f_equal.
  rewrite <- !(map_nth p_mask). now rewrite H.
Qed.

Lemma size_of_masks (ps qs : list (param A)) i : map p_mask qs = map p_mask ps -> size_of qs i = size_of ps i.
Proof. intros H. unfold size_of. rewrite <- !(map_nth p_mask). now rewrite H. Qed.

Definition fixed_part ps (D : nat -> nat -> A) : A :=
  sumA (fun i => sumA (fun a => mul (D i a) (pval ps (i, a))) (fixed_idx (p_mask (nth i ps noparam)))) (seq 0 (length ps)).

Lemma linear_value ps pm g c0 coef : Forall param_wf ps -> Forall (fun k => k < length ps) pm ->
  linear_fun g c0 coef -> length coef = length pm ->
  (forall p, p < length pm -> length (nth p coef []) = size_of ps (nth p pm 0)) ->
  let D := fun i a => sumA (fun p => nth a (nth p coef []) zero) (occurrences pm i) in
  sf_val g (args_of ps pm) = Ok (add c0 (add (dotp (map (fun ia => D (fst ia) (snd ia)) (free_coords ps)) (free_entries ps)) (fixed_part ps D))) /\
  sf_grad g (args_of ps pm) = Ok coef.
Proof.
  intros Hwf Hpm Hlin Hl Hs D.
  assert (Ha : forall p, p < length pm -> nth p (args_of ps pm) noparam = nth (nth p pm 0) ps noparam).
  { intros p Hp. unfold args_of. now apply (nth_map_lt (fun k => nth k ps noparam)). }
  assert (Hk : forall p, p < length pm -> nth p pm 0 < length ps).
  { intros p Hp. rewrite Forall_forall in Hpm. apply Hpm, nth_In, Hp. }
  assert (Hv : forall i, i < length ps -> length (p_vals (nth i ps noparam)) = size_of ps i).
  { intros i Hi. rewrite Forall_forall in Hwf. destruct (Hwf (nth i ps noparam)) as [H1 H2]; [apply nth_In; auto|].
    unfold size_of. congruence. }
  destruct (Hlin (args_of ps pm)) as [E1 E2].
  { unfold args_of. rewrite map_length. auto. }
  { intros p Hp. rewrite Hl in Hp. rewrite Ha by auto. rewrite Hs by auto. apply Hv. auto. }
  split; auto. rewrite E1. f_equal. f_equal. rewrite Hl.
  rewrite (sumA_ext zero add _ (fun p => sumA (fun a => mul (nth a (nth p coef []) zero) (pval ps (nth p pm 0, a))) (seq 0 (size_of ps (nth p pm 0))))).
  2:{ intros p Hp. apply in_seq in Hp. rewrite Ha by lia. rewrite dotp_seq.
      - rewrite Hs by lia. reflexivity.
      - rewrite Hs, Hv by (try lia; apply Hk; lia). reflexivity. }
  rewrite (sum_by_occ (length ps) pm (fun p i => sumA (fun a => mul (nth a (nth p coef []) zero) (pval ps (i, a))) (seq 0 (size_of ps i)))) by auto.
  rewrite (sumA_ext zero add _ (fun i => sumA (fun a => mul (D i a) (pval ps (i, a))) (seq 0 (size_of ps i)))).
  2:{ intros i _. rewrite sum_swap. apply sumA_ext. intros a _. unfold D.
      rewrite <- (Rmul_comm RT). rewrite sum_mul. apply sumA_ext. intros p _. ring. }
  unfold size_of. rewrite (sumA_ext zero add _ (fun i => add (sumA (fun a => mul (D i a) (pval ps (i, a))) (free_idx (p_mask (nth i ps noparam))))
     (sumA (fun a => mul (D i a) (pval ps (i, a))) (fixed_idx (p_mask (nth i ps noparam)))))).
  2:{ intros i _. apply sum_split_free. }
  rewrite sum_add. f_equal. rewrite free_entries_coords by auto.
  rewrite dotp_maps. unfold free_coords. rewrite sum_flat_map. apply sumA_ext. intros i _. now rewrite sumA_map.
Qed.

Lemma fixed_idx_in m a : In a (fixed_idx m) -> nth_error m a = Some true.
Proof.
  unfold fixed_idx. rewrite filter_In, in_seq. intros [H1 H2]. rewrite (nth_error_nth' m true) by lia. now rewrite H2.
Qed.

Lemma entries_fixed_coords (p : param A) : param_wf p ->
  entries_with true p = map (fun a => nth a (p_vals p) zero) (fixed_idx (p_mask p)).
Proof.
  intros [H1 H2]. rewrite entries_fixed. unfold fixed_vals, fixed_idx.
  assert (H : length (p_vals p) = length (p_mask p)) by congruence. revert H. clear.
  generalize (p_vals p) (p_mask p). intros v m. revert v. induction m as [|b m IH]; intros [|x v] H; cbn in H; try lia; [reflexivity|].
  cbn [length seq filter bool_index]. change (nth 0 (b :: m) true) with b.
  assert (E : map (fun a => nth a (x :: v) zero) (filter (fun a => nth a (b :: m) true) (seq 1 (length m))) =
              map (fun a => nth a v zero) (filter (fun a => nth a m true) (seq 0 (length m)))).
  { rewrite <- seq_shift. generalize (seq 0 (length m)). induction l as [|z l IHl]; [reflexivity|].
    cbn [map filter]. change (nth (S z) (b :: m) true) with (nth z m true). destruct (nth z m true); cbn [map]; [f_equal|]; auto. }
  destruct b; cbn [map]; rewrite E, IH by lia; reflexivity.
Qed.

Lemma fixed_part_eq ps qs D : Forall param_wf ps -> Forall param_wf qs ->
  map p_mask qs = map p_mask ps -> map (entries_with true) qs = map (entries_with true) ps ->
  fixed_part qs D = fixed_part ps D.
Proof.
  intros Hp Hq Hm He. assert (HL : length qs = length ps) by (rewrite <- (map_length p_mask qs), Hm; apply map_length).
  unfold fixed_part. rewrite HL. apply sumA_ext. intros i Hi. apply in_seq in Hi.
  assert (Em : p_mask (nth i qs noparam) = p_mask (nth i ps noparam)) by (rewrite <- !(map_nth p_mask); now rewrite Hm).
  assert (Ee : entries_with true (nth i qs noparam) = entries_with true (nth i ps noparam)).
  { rewrite <- !(map_nth (entries_with true)). now rewrite He. }
  rewrite !entries_fixed_coords in Ee.
  2,3: (rewrite Forall_forall in Hp, Hq; first [apply Hp, nth_In; lia | apply Hq, nth_In; lia]).
  rewrite Em in Ee |- *. revert Ee. generalize (fixed_idx (p_mask (nth i ps noparam))).
  induction l as [|a l IH]; intros E; [reflexivity|]. cbn [map] in E. injection E as E0 E1.
  rewrite !sumA_cons, (IH E1). unfold pval; cbn [fst snd]. now rewrite E0.
Qed.

Lemma free_coords_length (ps : list (param A)) : length (free_coords ps) = n_free ps.
Proof.
  unfold n_free, free_coords.
  rewrite flat_map_concat_map.
  transitivity (count_occ bool_dec (concat (map p_mask (map (fun k => nth k ps noparam) (seq 0 (length ps))))) false).
  2:{ now rewrite map_nth_seq. }
  generalize (seq 0 (length ps)). induction l as [|i l IH]; [reflexivity|]. cbn [map concat]. rewrite app_length, count_occ_app, map_length, IH.
  now rewrite free_idx_length.
Qed.

Lemma newton_constraint ps glike hlike cs rs M v x m ps' pm g c0 coef :
  ps <> [] -> Forall param_wf ps ->
  Forall (registered ps) cs -> Forall (registered ps) rs ->
  grad_shaped ps glike -> hess_shaped ps hlike ->
  flat_grad A zero add sub mul ps glike cs rs = Ok v ->
  flat_hess A zero add sub mul ps hlike cs rs = Ok M ->
  length x = length v -> mat_vec M x = v ->
  reshape_params ps (move (free_entries ps) m (firstn (n_free ps) x)) = Ok ps' ->
  In (pm, g) cs -> linear_fun g c0 coef -> length coef = length pm ->
  (forall p, p < length pm -> length (nth p coef []) = size_of ps (nth p pm 0)) ->
  exists val, sf_val g (args_of ps pm) = Ok val /\
              sf_val g (args_of ps' pm) = Ok (mul (sub one m) val).
Proof.
  intros Hne Hwf Hcs Hrs Hgs Hhs Hg Hh Hx Hs Hr Hin Hlin Hlc Hsz.
  rewrite (flat_grad_spec zero one add mul sub opp RT) in Hg by auto. injection Hg as Hg.
  destruct (flat_hess_spec zero one add mul sub opp RT ps hlike cs rs) as [[_ E]|[_ E]]; auto; rewrite E in Hh; [|discriminate].
  injection Hh as Hh.
  assert (Hpm : Forall (fun k => k < length ps) pm).
  { rewrite Forall_forall in Hcs. apply (Hcs (pm, g) Hin). }
  set (F := n_free ps) in *. set (FC := free_coords ps) in *.
  assert (HF : length FC = F) by apply free_coords_length.
  assert (Hfl : length (free_entries ps) = F).
  { rewrite free_entries_coords by auto. now rewrite map_length. }
  assert (Hxl : length x = F + length cs).
  { rewrite Hx, <- Hg, app_length, !map_length. fold FC. lia. }
  set (s := firstn F x) in *.
  assert (Hsl : length s = F) by (unfold s; rewrite firstn_length; lia).
  assert (Hml : length (move (free_entries ps) m s) = F) by (unfold move; rewrite map_length, combine_length; lia).
  destruct (C02_p ps (move (free_entries ps) m s)) as (qs & Eq & Hshape & Hmask & Hfix & Hfree & Hwf'); auto.
  rewrite Hr in Eq. injection Eq as <-.
  set (D := fun i a => sumA (fun p => nth a (nth p coef []) zero) (occurrences pm i)).
  assert (HL : length ps' = length ps) by (rewrite <- (map_length p_mask ps'), Hmask; apply map_length).
  destruct (linear_value ps pm g c0 coef) as [Ev Eg]; auto.
  destruct (linear_value ps' pm g c0 coef) as [Ev' Eg']; auto.
  { now rewrite HL. } { intros p Hp. rewrite (size_of_masks ps ps') by auto. auto. }
  fold D in Ev, Ev'. eexists; split; [exact Ev|]. rewrite Ev'. f_equal.
  rewrite Hfree, (fixed_part_eq ps ps') by auto. rewrite (free_coords_masks ps ps') by auto. fold FC.
  rewrite dotp_move by (rewrite map_length; lia).
  assert (Edf : forall i a, i < length ps -> a < size_of ps i -> dfun zero add ps (pm, g) i a = D i a).
  { intros i a Hi Ha. unfold dfun, D, fgrad. cbn [fst snd]. rewrite Eg. cbn [got].
    apply sumA_ext. intros p Hp. apply in_occurrences in Hp. destruct Hp as [Hp <-].
    unfold entry. specialize (Hsz p Hp). destruct (nth p coef []) as [|y [|z w]] eqn:En; auto.
    cbn in Hsz. assert (a = 0) by lia. now subst. }
  assert (EFC : map (fun jb => dfun zero add ps (pm, g) (fst jb) (snd jb)) FC = map (fun ia => D (fst ia) (snd ia)) FC).
  { apply map_ext_in. intros [i a] Hia. apply in_free_coords in Hia. cbn [fst snd]. apply Edf; tauto. }
  assert (Erow : dotp (map (fun ia => D (fst ia) (snd ia)) FC) s = fvalue zero ps (pm, g)).
  { apply In_nth with (d := (pm, g)) in Hin. destruct Hin as (k & Hk & Enk).
    assert (En : nth (F + k) (mat_vec M x) zero = nth (F + k) v zero) by (now rewrite Hs).
    rewrite <- Hg in En. rewrite app_nth2 in En by (rewrite map_length; fold FC; lia).
    rewrite map_length in En. fold FC in En. rewrite HF in En. replace (F + k - F) with k in En by lia.
    rewrite (nth_map_lt (fvalue zero ps) cs k (pm, g)) in En by auto. rewrite Enk in En. rewrite <- En.
    unfold mat_vec. rewrite <- Hh. unfold assembled. rewrite map_app.
    rewrite app_nth2 by (rewrite !map_length; fold FC; lia). rewrite !map_length. fold FC. rewrite HF.
    replace (F + k - F) with k by lia. rewrite map_map.
    rewrite (nth_map_lt (fun x0 => dotp (map (fun jb => dfun zero add ps x0 (fst jb) (snd jb)) FC ++ repeat zero (length cs)) x) cs k (pm, g)) by auto.
    rewrite Enk, dotp_app_zero, EFC. unfold s. rewrite <- HF.
    rewrite <- (map_length (fun ia => D (fst ia) (snd ia)) FC). apply dotp_firstn. }
  unfold D in Erow. cbv beta in Erow |- *. rewrite Erow. unfold fvalue. cbn [fst snd]. rewrite Ev. cbn [got]. fold FC. ring.
Qed.
End P.

(** Property C60: memory of Tensors and Params. *)
From Verif Require Import Prelude HeapModel HeapSpec HeapProofs.

Section C60.
Context {V : Type} (cast : nat -> V -> V).
Notation heap := (@heap V).

(** assigning or deleting an attribute raises and changes nothing *)
Theorem C60_attributes : forall (s : heap) t, step cast s (SetAttr t) = (s, Raise NotImplementedError) /\ step cast s (DelAttr t) = (s, Raise NotImplementedError).
Proof. auto. Qed.
(** an array of the right dtype is kept, not copied; afterwards writing through the
    array object that was passed raises; and if no other writable array object
    shows its cells, no later history of allocations, views, writes, new Tensors
    and Params changes what the Tensor holds *)
Theorem C60_tensor : forall (s : heap) o a, reachable cast s -> nth_error (objs s) o = Some a ->
  let s' := fst (step cast s (MkTensor o (dt a))) in
  outcome cast s (MkTensor o (dt a)) = Ok tt /\ tens s' = tens s ++ [o] /\ read s' o = read s o /\
  (forall k v, outcome cast s' (Write o k v) = Raise ValueError) /\
  (sole s o -> forall h, no_unlock h -> read (run cast s' h) o = read s o).
Proof.
  intros s o a R E. cbv zeta. destruct (tensor_same cast s o a (dt a) E eq_refl) as (O & T & Rd & W & F). repeat split; auto.
  intros S h NU. pose proof (reachable_bounded cast s R) as B. rewrite <- Rd. apply (run_frozen cast h); auto. now apply step_bounded.
Qed.
(** an array of another dtype is copied: the Tensor can never change, and the
    caller's array is left as it was (in particular as writable as it was) *)
Theorem C60_tensor_copied : forall (s : heap) o a d, reachable cast s -> nth_error (objs s) o = Some a -> dt a <> d ->
  let s' := fst (step cast s (MkTensor o d)) in let n := length (objs s) in
  tens s' = tens s ++ [n] /\ nth_error (objs s') o = Some a /\ read s' o = read s o /\
  forall h, no_unlock h -> read (run cast s' h) n = map (cast d) (read s o).
Proof.
  intros s o a d R E D. cbv zeta. pose proof (reachable_bounded cast s R) as B. destruct (tensor_copied cast s o a d B E D) as (O & T & Rd & Ro & K & F). repeat split; auto.
  intros h NU. rewrite <- Rd. apply (run_frozen cast h); auto. now apply step_bounded.
Qed.
(** Param: the same for its values; the mask array stays writable *)
Theorem C60_param : forall (s : heap) o m a b, reachable cast s -> nth_error (objs s) o = Some a -> nth_error (objs s) m = Some b -> length (adr a) = length (adr b) -> o <> m ->
  let s' := fst (step cast s (MkParam o m)) in
  pars s' = pars s ++ [(o, m)] /\ read s' o = read s o /\ nth_error (objs s') m = Some b /\
  (forall k v, outcome cast s' (Write o k v) = Raise ValueError) /\
  (sole s o -> forall h, no_unlock h -> read (run cast s' h) o = read s o).
Proof.
  intros s o m a b R E Em L N. cbv zeta. destruct (param_made cast s o m a b E Em L N) as (O & T & Rd & W & F & K). repeat split; auto.
  intros S h NU. pose proof (reachable_bounded cast s R) as B. rewrite <- Rd. apply (run_frozen cast h); auto. now apply step_bounded.
Qed.
(** in every reachable state, the only operation that changes what an array (hence
    a Tensor or Param) holds is a write through a writable array object that shows
    one of its cells *)
Theorem C60_only_shared_writes : forall (s : heap) x o a, reachable cast s -> nth_error (objs s) o = Some a -> read (fst (step cast s x)) o <> read s o ->
  exists o' k v a', x = Write o' k v /\ nth_error (objs s) o' = Some a' /\ wr a' = true /\ overlap a a'.
Proof. intros s x o a R. apply change_is_write. now apply (reachable_bounded cast). Qed.
End C60.

(** finding: a view taken before the Tensor is built stays writable, and writing
    through it changes the Tensor *)
Theorem C60_alias_changes : exists (s : @heap nat) o w, reachable (fun _ v => v) s /\ tens s = [o] /\
  outcome (fun _ v => v) s w = Ok tt /\ read s o = [10; 20; 30] /\ read (fst (step (fun _ v => v) s w)) o = [10; 99; 30].
Proof.
  exists (run (fun _ v => v) (empty (fun _ => 0)) [Alloc [10; 20; 30] 7; View 0 [1; 2]; MkTensor 0 7]), 0, (Write 1 0 99).
  split; [do 2 eexists; reflexivity|]. repeat split; reflexivity.
Qed.
(** finding: the mask of a Param can be changed through the array it was given *)
Theorem C60_mask_changes : exists (s : @heap nat) o m w, reachable (fun _ v => v) s /\ pars s = [(o, m)] /\
  outcome (fun _ v => v) s w = Ok tt /\ read s m = [0; 0] /\ read (fst (step (fun _ v => v) s w)) m = [1; 0].
Proof.
  exists (run (fun _ v => v) (empty (fun _ => 0)) [Alloc [10; 20] 7; Alloc [0; 0] 1; MkParam 0 1]), 0, 1, (Write 1 0 1).
  split; [do 2 eexists; reflexivity|]. repeat split; reflexivity.
Qed.
Print Assumptions C60_attributes. Print Assumptions C60_tensor. Print Assumptions C60_tensor_copied. Print Assumptions C60_param.
Print Assumptions C60_only_shared_writes. Print Assumptions C60_alias_changes. Print Assumptions C60_mask_changes.
Example C60_nonvacuous : let s := run (fun _ v => v) (empty (fun _ => 0)) [Alloc [10; 20; 30] 7; Alloc [1; 2] 7; View 1 [0]] in
  reachable (fun _ v => v) s /\ sole s 0 /\ ~ sole s 1 /\ no_unlock [Alloc [5] 7; View 0 [1]; Write 0 0 99; Write 3 0 98; Write 2 0 97; Lock 1; MkParam 1 4] /\
  read (run (fun _ v => v) (fst (step (fun _ v => v) s (MkTensor 0 7))) [Alloc [5] 7; View 0 [1]; Write 0 0 99; Write 3 0 98; Write 2 0 97]) 0 = [10; 20; 30] /\
  read (run (fun _ v => v) (fst (step (fun _ v => v) s (MkTensor 0 7))) [Alloc [5] 7; View 0 [1]; Write 0 0 99; Write 3 0 98; Write 2 0 97]) 1 = [97; 2].
Proof.
  cbv zeta. split; [do 2 eexists; reflexivity|]. split; [|split; [|split; [|split; reflexivity]]].
  - intros a [|[|[|o]]] a' E E' N (p & P1 & P2); cbn in E, E'; try congruence; injection E as <-; try (injection E' as <-); cbn in P1, P2; try lia. now destruct o.
  - intros S. assert (false = true); [|discriminate]. symmetry. apply (S (mkO [3; 4] true 7 None) 2 (mkO [3] true 7 (Some 1))); try reflexivity; [discriminate|]. exists 3. cbn. auto.
  - intros o H. cbn in H. decompose [or] H; try discriminate. assumption.
Qed.

(** What "grad is the derivative of the value" means, independently of any
    code: along every curve of parameters that is differentiable at a point,
    the value is differentiable and its derivative is the pairing of the
    gradient with the velocity. *)
From Coq Require Import Reals List Lra.
From Coquelicot Require Import Coquelicot.
Import List ListNotations.
Local Open Scope R_scope.

Definition Rsum {X} (f : X -> R) (l : list X) : R := fold_right Rplus 0 (map f l).

Section Spec.
Context {P : Type}.                     (* coordinates: (parameter, entry) *)
Variable coords : list P.               (* the finitely many coordinates *)

(** [c] is a curve with velocity [v] at time [t]. *)
Definition curve_at (c : R -> P -> R) (v : P -> R) (t : R) : Prop :=
  forall p, In p coords -> is_derive (fun s => c s p) t (v p).

(** [df] is the gradient of [f] at every point of [dom]. *)
Definition gradient_on (dom : (P -> R) -> Prop) (f : (P -> R) -> R) (df : (P -> R) -> P -> R) : Prop :=
  forall c v t, dom (c t) -> curve_at c v t ->
    is_derive (fun s => f (c s)) t (Rsum (fun p => df (c t) p * v p) coords).
End Spec.

Lemma Rsum_nil {X} (f : X -> R) : Rsum f [] = 0.
Proof. reflexivity. Qed.
Lemma Rsum_cons {X} (f : X -> R) x l : Rsum f (x :: l) = f x + Rsum f l.
Proof. reflexivity. Qed.
Lemma Rsum_app {X} (f : X -> R) l l' : Rsum f (l ++ l') = Rsum f l + Rsum f l'.
Proof. induction l as [|x l IH]; cbn [app]; rewrite ?Rsum_cons, ?Rsum_nil; [lra|]. rewrite IH; lra. Qed.
Lemma Rsum_ext {X} (f g : X -> R) l : (forall x, In x l -> f x = g x) -> Rsum f l = Rsum g l.
Proof. intros H. unfold Rsum. f_equal. apply map_ext_in. exact H. Qed.
Lemma Rsum_plus {X} (f g : X -> R) l : Rsum (fun x => f x + g x) l = Rsum f l + Rsum g l.
Proof. induction l as [|x l IH]; rewrite ?Rsum_cons, ?Rsum_nil; [lra|]. rewrite IH; lra. Qed.
Lemma Rsum_minus {X} (f g : X -> R) l : Rsum (fun x => f x - g x) l = Rsum f l - Rsum g l.
Proof. induction l as [|x l IH]; rewrite ?Rsum_cons, ?Rsum_nil; [lra|]. rewrite IH; lra. Qed.
Lemma Rsum_scal {X} c (f : X -> R) l : Rsum (fun x => c * f x) l = c * Rsum f l.
Proof. induction l as [|x l IH]; rewrite ?Rsum_cons, ?Rsum_nil; [lra|]. rewrite IH; lra. Qed.
Lemma Rsum_scal_r {X} c (f : X -> R) l : Rsum (fun x => f x * c) l = Rsum f l * c.
Proof. induction l as [|x l IH]; rewrite ?Rsum_cons, ?Rsum_nil; [lra|]. rewrite IH; lra. Qed.
Lemma Rsum_opp {X} (f : X -> R) l : Rsum (fun x => - f x) l = - Rsum f l.
Proof. induction l as [|x l IH]; rewrite ?Rsum_cons, ?Rsum_nil; [lra|]. rewrite IH; lra. Qed.
Lemma Rsum_zero {X} (f : X -> R) l : (forall x, In x l -> f x = 0) -> Rsum f l = 0.
Proof.
  induction l as [|x l IH]; intros H; rewrite ?Rsum_cons; [reflexivity|].
  rewrite H, IH; [lra| |left; reflexivity]. intros; apply H; now right.
Qed.
Lemma Rsum_swap {X Y} (f : X -> Y -> R) l l' :
  Rsum (fun x => Rsum (fun y => f x y) l') l = Rsum (fun y => Rsum (fun x => f x y) l) l'.
Proof.
  induction l as [|x l IH].
  - symmetry. apply Rsum_zero. reflexivity.
  - rewrite Rsum_cons, IH, <- Rsum_plus. apply Rsum_ext. intros. now rewrite Rsum_cons.
Qed.
Lemma Rsum_map {X Y} (f : Y -> R) (h : X -> Y) l : Rsum f (map h l) = Rsum (fun x => f (h x)) l.
Proof. unfold Rsum. now rewrite map_map. Qed.
Lemma Rsum_nonneg {X} (f : X -> R) l : (forall x, In x l -> 0 <= f x) -> 0 <= Rsum f l.
Proof.
  induction l as [|x l IH]; intros H; rewrite ?Rsum_cons, ?Rsum_nil; [lra|].
  assert (0 <= f x) by (apply H; now left). assert (0 <= Rsum f l) by (apply IH; intros; apply H; now right). lra.
Qed.
Lemma Rsum_pos {X} (f : X -> R) l : l <> [] -> (forall x, In x l -> 0 < f x) -> 0 < Rsum f l.
Proof.
  destruct l as [|x l]; [congruence|]. intros _ H. rewrite Rsum_cons.
  assert (0 < f x) by (apply H; now left). assert (0 <= Rsum f l); [|lra].
  apply Rsum_nonneg. intros; apply Rlt_le, H; now right.
Qed.
Lemma Rsum_le {X} (f g : X -> R) l : (forall x, In x l -> f x <= g x) -> Rsum f l <= Rsum g l.
Proof.
  induction l as [|x l IH]; intros H; rewrite ?Rsum_cons, ?Rsum_nil; [lra|].
  assert (f x <= g x) by (apply H; now left). assert (Rsum f l <= Rsum g l) by (apply IH; intros; apply H; now right). lra.
Qed.

Lemma is_derive_Rsum {X} (f : R -> X -> R) (df : X -> R) l t :
  (forall x, In x l -> is_derive (fun s => f s x) t (df x)) ->
  is_derive (fun s => Rsum (f s) l) t (Rsum df l).
Proof.
  induction l as [|x l IH]; intros H.
  - apply (is_derive_const 0 t).
  - apply (is_derive_plus (fun s => f s x) (fun s => Rsum (f s) l)).
    + apply H; now left.
    + apply IH. intros; apply H; now right.
Qed.

Lemma is_derive_eq (f : R -> R) t (a b : R) : is_derive f t a -> a = b -> is_derive f t b.
Proof. now intros H <-. Qed.

(** Real-typed versions of Coquelicot's rules. *)
Lemma D_plus (f g : R -> R) t a b : is_derive f t a -> is_derive g t b -> is_derive (fun s => f s + g s) t (a + b).
Proof. intros. now apply (is_derive_plus f g). Qed.
Lemma D_minus (f g : R -> R) t a b : is_derive f t a -> is_derive g t b -> is_derive (fun s => f s - g s) t (a - b).
Proof. intros. now apply (is_derive_minus f g). Qed.
Lemma D_opp (f : R -> R) t a : is_derive f t a -> is_derive (fun s => - f s) t (- a).
Proof. intros. now apply (is_derive_opp f). Qed.
Lemma D_mult (f g : R -> R) t a b : is_derive f t a -> is_derive g t b -> is_derive (fun s => f s * g s) t (a * g t + f t * b).
Proof. intros. apply (is_derive_mult f g); auto. intros; apply Rmult_comm. Qed.
Lemma D_const (k : R) t : is_derive (fun _ => k) t 0.
Proof. apply (is_derive_const k t). Qed.
Lemma D_scal (k : R) (f : R -> R) t a : is_derive f t a -> is_derive (fun s => k * f s) t (k * a).
Proof. intros H. apply (is_derive_scal f t k a H). Qed.
Lemma D_id t : is_derive (fun s => s) t 1.
Proof. apply (is_derive_id t). Qed.
(** Composition with a function differentiable at the point. *)
Lemma D_comp (F f : R -> R) t a b : is_derive F (f t) b -> is_derive f t a -> is_derive (fun s => F (f s)) t (b * a).
Proof. intros H1 H2. eapply is_derive_eq; [apply (is_derive_comp F f t b a H1 H2)|]. unfold scal; cbn. unfold mult; cbn. ring. Qed.
Lemma D_exp (f : R -> R) t a : is_derive f t a -> is_derive (fun s => exp (f s)) t (exp (f t) * a).
Proof. intros H. apply (D_comp exp f); auto. apply is_derive_Reals, derivable_pt_lim_exp. Qed.
Lemma D_ln (f : R -> R) t a : 0 < f t -> is_derive f t a -> is_derive (fun s => ln (f s)) t (/ f t * a).
Proof. intros Hp H. apply (D_comp ln f); auto. apply is_derive_Reals, derivable_pt_lim_ln; auto. Qed.
Lemma D_inv (f : R -> R) t a : f t <> 0 -> is_derive f t a -> is_derive (fun s => / f s) t (- a / (f t) ^ 2).
Proof. intros Hp H. apply is_derive_inv; auto. Qed.
Lemma D_div (f g : R -> R) t a b : g t <> 0 -> is_derive f t a -> is_derive g t b ->
  is_derive (fun s => f s / g s) t ((a * g t - f t * b) / (g t) ^ 2).
Proof. intros Hp H1 H2. apply is_derive_div; auto. Qed.

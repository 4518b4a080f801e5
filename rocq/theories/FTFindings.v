(** Function objects computing with Tensors: what goes wrong outside the class
    of FTBuilt.v. *)
From Verif Require Import Prelude DenseModel NDArray TensorModel TensorSpec TensorUfunc FuncModel FuncSpec FTModel FTSpec.
From Coq Require Import Reals Lra.
Import List ListNotations.
Open Scope R_scope.

(** a one-dimensional numpy array of length [k] *)
Definition vec (k : nat) (V : nat -> R) : pval := PArr (mkA [k] (fun i => V (nth 0 i 0%nat))).
(** X() of the first, of the second parameter *)
Definition first_of_two : tfun := t_wrap (mkW [0%nat] [0%nat] 1 [] 0 []) t_X.
(** (x axes, y axes, features, dim axes) and the shape of the stored array *)
Definition axes_of (r : res pval) : option (nat * nat * nat * nat * list nat) :=
  match r with Ok (PT t) => Some (xd t, yd t, nn t, dm t, shp (tv t)) | _ => None end.
Definition error_of (r : res pval) : option exn := match r with Raise e => Some e | Ok _ => None end.

Ltac ftc := intros; vm_compute; repeat (match goal with |- context[Req_EM_T ?a ?b] => destruct (Req_EM_T a b) as [?|?] end; try congruence; try (exfalso; now apply R1_neq_R0); try (exfalso; change R0 with 0 in *; change R1 with 1 in *; lra); vm_compute); try reflexivity.

(** exp(a), as a function of (a, b): the gradient for [b] comes back with one y
    axis and no x axis, the Hessian with a second feature axis *)
Lemma ignored_grad u v : axes_of (t_grad (t_compose t_Exp [first_of_two]) [vec 2 u; vec 3 v] 1) = Some (0, 1, 1, 0, [1; 2])%nat.
Proof. ftc. Qed.
Lemma ignored_hess u v : axes_of (t_hess (t_compose t_Exp [first_of_two]) [vec 2 u; vec 3 v] 1 0) = Some (0, 1, 2, 0, [1; 2; 2])%nat.
Proof. ftc. Qed.
(** the wrapper itself answers Tensor(0) *)
Lemma ignored_wrap u v : t_grad (t_wrap (mkW [0%nat] [0%nat] 1 [] 0 []) t_Exp) [vec 2 u; vec 3 v] 1 = Ok tzero.
Proof. reflexivity. Qed.

(** feat_flip on a feature that carries the diagonal of a gradient *)
Lemma flip_call u : axes_of (t_call (t_wrap (mkW [0%nat] [0%nat] 1 [] 0 [0%nat]) t_X) [vec 2 u]) = Some (0, 0, 1, 0, [2])%nat.
Proof. ftc. Qed.
Lemma flip_grad u : t_grad (t_wrap (mkW [0%nat] [0%nat] 1 [] 0 [0%nat]) t_X) [vec 2 u] 0 = Raise NotImplementedError.
Proof. ftc. Qed.

(** a Compose with a linear outer function answers the int 0 for its Hessian; a
    wrapper around it then fails *)
Lemma dot_right_zero s : tdot_right s (tnum 0) = Ok (PNum 0).
Proof. unfold tdot_right, is_zero0. cbn [tnum tv np_scalar shp el]. destruct (Req_EM_T 0 0) as [_|n]; [reflexivity|congruence]. Qed.
Lemma compose_linear_hess g ps i j v t : t_call g ps = Ok v -> t_hess g ps i j = Ok tzero -> t_grad t_X [v] 0 = Ok (PT t) ->
  t_hess (t_compose t_X [g]) ps i j = Ok (PNum (0 + 0)).
Proof.
  intros Ev Eh Eg. cbn [t_compose t_hess]. change (t_nullg t_X) with false. change (t_nullh t_X) with true. cbn iota. unfold tcompose_hess_null. cbn [rmapM]. rewrite Ev. cbn [rbind enum length seq combine rmapM].
  rewrite Eg. cbn [rbind]. rewrite Eh. cbn [rbind]. change (pdrop tzero) with (Ok tzero). cbn [rbind]. unfold pdot_right, tdot_right_any, tzero. rewrite dot_right_zero. cbn [rbind]. reflexivity.
Qed.
Lemma wrap_linear_hess u w : w_pm w = [0%nat] -> t_hess (t_wrap w (t_compose t_X [t_X])) [vec 2 u] 0 0 = Raise AttributeError.
Proof.
  intros Ew. cbn [t_wrap t_hess]. change (t_nullh (t_compose t_X [t_X])) with false. cbn iota. rewrite Ew. change (imap [0%nat] [vec 2 u]) with (Ok [vec 2 u]). change (rindex [0%nat] 0%nat) with (Ok 0%nat). cbn [rbind].
  erewrite compose_linear_hess; [reflexivity|reflexivity|reflexivity|reflexivity].
Qed.
Lemma wrap_linear_call u w : w_pm w = [0%nat] -> t_call (t_wrap w (t_compose t_X [t_X])) [vec 2 u] = t_call (t_wrap w t_X) [vec 2 u].
Proof. intros Ew. cbn [t_wrap t_call]. rewrite Ew. reflexivity. Qed.

(** a scalar parameter spread over a feature axis: its rank depends on whether it
    is 0, and so does whether the expression can be evaluated *)
Definition spread : tfun := t_wrap (mkW [0%nat] [] 1 [] 0 []) t_Scalar.
Definition shifted : tfun := t_wrap (mkW [0%nat] [1%nat] 2 [] 0 []) (t_affine spread 1 5).
Lemma spread_zero : axes_of (t_call spread [PNum 0]) = Some (0, 0, 0, 0, [])%nat.
Proof. ftc. Qed.
Lemma spread_one c : c <> 0 -> axes_of (t_call spread [PNum c]) = Some (0, 0, 1, 0, [1])%nat.
Proof. intros Hc. vm_compute. repeat (match goal with |- context[Req_EM_T ?a ?b] => destruct (Req_EM_T a b) as [?|?] end; try congruence; vm_compute); try reflexivity. exfalso. apply Hc. assumption. Qed.
Lemma shifted_zero : t_call shifted [PNum 0] = Raise AssertionError.
Proof. ftc. Qed.
Lemma shifted_one : axes_of (t_call shifted [PNum 1]) = Some (0, 0, 2, 0, [1; 1])%nat.
Proof. ftc. Qed.

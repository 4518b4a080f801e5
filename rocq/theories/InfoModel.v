(** AIC / BIC (maxlike_base.py:159-211) over the reals. *)
From Coq Require Import Reals.
From Verif Require Import Prelude ParamModel ParamProofs ParamSpec ParamPropProofs.
Local Open Scope R_scope.

(** maxlike_base.py:183-188; [n] = total of N, [l] = self.g(self.params). *)
Definition aic {A} (ps : list (param A)) (extra : Z) (c : nat) (n l : R) : R :=
  let k := IZR (dof ps extra c) in 2 * k / (n - k - 1) - 2 * l.
(** maxlike_base.py:206-211. *)
Definition bic {A} (ps : list (param A)) (extra : Z) (c : nat) (n l : R) : R :=
  let k := IZR (dof ps extra c) in k * ln n / n - 2 * l.

Lemma aic_doc {A} (ps : list (param A)) extra c n l :
  Forall param_wf ps ->
  let k := IZR (Z.of_nat (n_free ps) + Z.of_nat (n_fixed ps) + extra - Z.of_nat c) in
  n <> 0 -> n - k - 1 <> 0 ->
  aic ps extra c n l = (2 * k - 2 * (l * n) + 2 * k * (k + 1) / (n - (k + 1))) / n.
Proof.
  intros Hw k Hn Hk. unfold aic. rewrite (C16_p ps extra c Hw). fold k.
  field. split; auto. intro E. apply Hk. rewrite <- E. ring.
Qed.
Lemma bic_doc {A} (ps : list (param A)) extra c n l :
  Forall param_wf ps ->
  let k := IZR (Z.of_nat (n_free ps) + Z.of_nat (n_fixed ps) + extra - Z.of_nat c) in
  n <> 0 -> bic ps extra c n l = (k * ln n - 2 * (l * n)) / n.
Proof.
  intros Hw k Hn. unfold bic. rewrite (C16_p ps extra c Hw). fold k. field. auto.
Qed.

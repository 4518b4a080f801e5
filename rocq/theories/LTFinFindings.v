(** Finite: what goes wrong when a derivative is stored with a dim axis of size 1
    (outside [full_model_for] of LTSpec.v). *)
From Verif Require Import Prelude DenseModel AnalyticSpec NDArray TensorModel TensorSpec TensorUfunc FuncModel FuncSpec FTModel FTSpec FTFindings LTModel LTSpec.
From Coquelicot Require Import Coquelicot.
From Coq Require Import Reals Lra.
Import List ListNotations.
Open Scope R_scope.

(** theta_k + lambda_k^u / u!, u = 0, 1: the values of Poisson(2), smoothed *)
Definition smoothed : tfun :=
  t_sum [(1, t_wrap (mkW (0 :: nil)%nat (0 :: nil)%nat 1 [] 1 []) t_X);
         (1, t_wrap (mkW (1 :: nil)%nat (0 :: nil)%nat 1 (0 :: nil)%nat 1 []) (t_Poisson 2))] 0.
Definition vec1 (a : R) : pval := vec 1 (fun _ => a).
(** a 1 x 2 table: one feature value, u = 0, 1 *)
Definition T12 (e : idx -> R) : pval := PT (mkT (mkA [1; 2]%nat e) 0 0 1 1 [] []).
Ltac inner E := lazymatch E with context [rbind ?E' _] => inner E' | _ =>
  let H := fresh in eassert (H : E = Ok _) by ftc; rewrite H; clear H; cbn [rbind] end.
Ltac stc := match goal with |- ?E = _ => inner E end.
Ltac sumc := unfold smoothed, t_sum; cbn [t_call t_grad rmapM]; repeat stc; ftc.

Lemma s_call a b : exists e, t_call smoothed [vec1 a; vec1 b] = Ok (T12 e) /\ e [0; 0]%nat = a + 1 /\ e [0; 1]%nat = a + b.
Proof. eexists. split; [sumc|]. split; cbn; field. Qed.
Lemma s_grad0 a b : t_grad smoothed [vec1 a; vec1 b] 0 = Ok (PT (mkT (mkA [1;1;1]%nat (fun _ => 1)) 1 0 1 1 (Some 0%nat :: nil) [])).
Proof. sumc. Qed.
Lemma s_grad1 a b : exists e, t_grad smoothed [vec1 a; vec1 b] 1 = Ok (PT (mkT (mkA [1;1;2]%nat e) 1 0 1 1 (Some 0%nat :: nil) [])).
Proof. eexists. sumc. Qed.
Lemma f_like n e : exists v, e_like (e_Finite (T12 n)) (T12 e) = Ok v /\
  get (vden v) [] [] [] [] = n [0; 0]%nat * (ln (e [0; 0]%nat) - ln (e [0; 0]%nat + e [0; 1]%nat)) + n [0; 1]%nat * (ln (e [0; 1]%nat) - ln (e [0; 0]%nat + e [0; 1]%nat)).
Proof.
  unfold e_Finite; cbn [e_like]. generalize ln; intros L. eexists. split; [repeat stc; ftc|]. cbn. rewrite !Rplus_0_r. ring.
Qed.
Lemma f_grad n e e1 : exists v r, e_grad (e_Finite (T12 n)) (T12 e) [PT (mkT (mkA [1;1;1]%nat (fun _ => 1)) 1 0 1 1 (Some 0%nat :: nil) []); PT (mkT (mkA [1;1;2]%nat e1) 1 0 1 1 (Some 0%nat :: nil) [])] = Ok (v :: r) /\
  get (vden v) (0 :: nil)%nat [] [] [] = n [0; 0]%nat * (1 / e [0; 0]%nat - 1 / (e [0; 0]%nat + e [0; 1]%nat)) + n [0; 1]%nat * (1 / e [0; 1]%nat - 1 / (e [0; 0]%nat + e [0; 1]%nat)).
Proof.
  unfold e_Finite; cbn [e_grad rmapM]. eexists. eexists. split; [repeat stc; ftc|]. cbn. rewrite !Rplus_0_r. unfold Rdiv. ring.
Qed.

(** data: one observation, with u = 0 *)
Definition obs10 : pval := T12 (fun i => if Nat.eqb (nth 1 i 0%nat) 0 then 1 else 0).
Theorem smoothed_like a b : 0 < a -> 0 <= b ->
  at_res (t_call (loglik (e_Finite obs10) smoothed) [vec1 a; vec1 b]) [] [] [] [] = ln (a + 1) - ln (a + 1 + (a + b)).
Proof.
  intros Ha Hb. cbn [loglik t_call]. destruct (s_call a b) as (e & Ee & E0 & E1). rewrite Ee. cbn [rbind]. unfold obs10.
  destruct (f_like (fun i => if Nat.eqb (nth 1 i 0%nat) 0 then 1 else 0) e) as (v & Ev & Vv). rewrite Ev. unfold at_res, res0. rewrite Vv, E0, E1. cbn [nth Nat.eqb]. ring.
Qed.
Theorem smoothed_grad a b : 0 < a -> 0 <= b ->
  at_res (t_grad (loglik (e_Finite obs10) smoothed) [vec1 a; vec1 b] 0) (0 :: nil)%nat [] [] [] = / (a + 1) - / (a + 1 + (a + b)).
Proof.
  intros Ha Hb. cbn [loglik t_grad]. destruct (s_call a b) as (e & Ee & E0 & E1). rewrite Ee. cbn [rbind]. unfold ders. cbn [length seq rmapM]. rewrite s_grad0. destruct (s_grad1 a b) as (e1 & Eg). rewrite Eg. cbn [rbind]. unfold obs10.
  destruct (f_grad (fun i => if Nat.eqb (nth 1 i 0%nat) 0 then 1 else 0) e e1) as (v & r & Ev & Vv). rewrite Ev. cbn [rbind]. unfold rnth. cbn [nth_error]. unfold at_res, res0. rewrite Vv, E0, E1. cbn [nth Nat.eqb]. field; lra.
Qed.
Theorem smoothed_derivative a b : 0 < a -> 0 <= b ->
  is_derive (fun t => at_res (t_call (loglik (e_Finite obs10) smoothed) [vec1 t; vec1 b]) [] [] [] []) a (/ (a + 1) - 2 * / (a + 1 + (a + b))).
Proof.
  intros Ha Hb. apply (is_derive_ext_loc (fun t => ln (t + 1) - ln (t + 1 + (t + b)))).
  - exists (mkposreal a Ha). intros t Ht. symmetry. apply smoothed_like; [|exact Hb]. change (Rabs (t - a) < a) in Ht. apply Rabs_lt_between in Ht. lra.
  - auto_derive; [repeat split; lra|]. field. split; lra.
Qed.

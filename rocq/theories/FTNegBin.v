(** NegativeBinomial(n, r), the composition of Exp with LogNegativeBinomial(n, r). *)
From Verif Require Import Prelude DenseModel AnalyticSpec DenseProofs NDArray NDProofs TensorModel TensorSpec FuncModel FuncSpec FTModel FTSpec FTRep FTVal FTRefine FTPrim FTKeep FTCompose FTBuilt FTValue ETModel ETSpec.
From Verif Require FuncPrim FuncCompose FuncLemmas.
From Coq Require Import Reals Lra.
Import List ListNotations.
Open Scope R_scope.

(** func_proba.py:110-111; scipy's gammaln is an argument *)
Definition t_NegativeBinomial (gammaln : R -> R) (size : nat) (r : R) : tfun := t_compose t_Exp (t_LogNegativeBinomial gammaln size r :: nil).
(** the same with eval *)
Definition o_NegativeBinomial (gammaln : R -> R) (size : nat) (r : R) : tobj := ETModel.o_compose ETModel.o_Exp (ETModel.o_LogNegativeBinomial gammaln size r :: nil).

#[local] Existing Instance loose.
Lemma negbin_outer gl size r s : posl (flat s) -> flat s <> [] -> (1 <= size)%nat -> 0 < r -> outer s (size :: nil) (posP s) (t_NegativeBinomial gl size r).
Proof. intros P NK Hs Hr. apply o_keep; [exact NK|]. now apply FTBuilt.o_LogNegativeBinomial. Qed.
Lemma negbin_eouter gl size r s : posl (flat s) -> flat s <> [] -> (1 <= size)%nat -> 0 < r -> eouter s (size :: nil) (posP s) (o_NegativeBinomial gl size r).
Proof. intros P NK Hs Hr. apply eo_keep; [exact NK|]. now apply eo_LogNegativeBinomial. Qed.
Lemma value_Exp_dims s p n d : posl (flat s) -> is_par s p -> In n (indices (fst s)) -> In d (indices (snd s)) -> at_res (t_call t_Exp [p]) [] [] n d = exp (pentry p (n ++ d)).
Proof.
  intros P Hp Hn Hd. destruct (exp_value s p _ P (is_par_pv s p Hp)) as (f & Ef & _ & (_ & _ & _ & _ & _ & V)). cbn [t_Exp t_call]. rewrite Ef. unfold at_res. cbn [rmap res0 vden]. exact (V n d Hn Hd).
Qed.
Lemma value_lnb gl size r s p n k : posl (flat s) -> (k < size)%nat -> is_par s p -> In n (indices (flat s)) ->
  at_res (t_call (t_LogNegativeBinomial gl size r) [p]) [] [] n [k] = lnb_row gl r (pentry p n) k.
Proof. intros P Hk Hp Hn. unfold t_LogNegativeBinomial. now rewrite (value_rows size _ _ _ s) by auto. Qed.
Theorem value_negbin gl size r s p n k : posl (flat s) -> (k < size)%nat -> 0 < r -> is_par s p -> (forall x, In x (indices (flat s)) -> 0 < pentry p x) -> In n (indices (flat s)) ->
  at_res (t_call (t_NegativeBinomial gl size r) [p]) [] [] n [k] = exp (lnb_row gl r (pentry p n) k).
Proof.
  intros P Hk Hr Hp Pos Hn. assert (Hs : (1 <= size)%nat) by lia. assert (Hk' : In [k] (indices [size])) by (apply In_indices; constructor; [exact Hk|constructor]).
  pose proof (tb_outer s [size] (posP s) _ (FTBuilt.o_LogNegativeBinomial gl size r s P Hs Hr)) as T.
  destruct (compose_value (s :: nil) (flat s, [size]) (posP s) _ _ t_Exp _ [p] T) as (v & Ev & Pv & Ec & Vv). { constructor; [exact Hp|constructor]. } { exact Pos. }
  unfold t_NegativeBinomial. rewrite Ec. rewrite (value_Exp_dims (flat s, [size]) v n [k]); auto.
  - rewrite (Vv n [k] Hn Hk'). now rewrite (value_lnb gl size r s) by auto.
  - apply Forall_app. split; [exact P|]. constructor; [exact Hs|constructor].
Qed.
(** the usual formula *)
Lemma exp_pow k m : 0 < m -> exp (INR k * ln m) = m ^ k.
Proof. intros H. rewrite <- Rpower_pow by exact H. reflexivity. Qed.
Lemma fact_pos k : 0 < INR (fact k).
Proof. apply lt_0_INR, lt_O_fact. Qed.
Theorem negbin_pmf gl q m k : (forall j, gl (INR (S j)) = ln (INR (fact j))) -> 0 < m -> let r := INR (S q) in
  exp (lnb_row gl r m k) = INR (fact (k + q)) / (INR (fact k) * INR (fact q)) * (r / (r + m)) ^ (S q) * (m / (r + m)) ^ k.
Proof.
  intros G Hm r. assert (Hr : 0 < r) by (apply lt_0_INR; lia). unfold lnb_row.
  replace (r + INR k) with (INR (S (k + q))) by (unfold r; rewrite !S_INR, plus_INR; ring). unfold r at 1. rewrite !G.
  replace (INR k + r) with (INR (k + S q)) by (unfold r; now rewrite plus_INR). unfold r at 1.
  unfold Rminus. rewrite !exp_plus, !exp_Ropp, !exp_pow, !exp_ln by (auto using fact_pos; lra). fold r.
  rewrite !Rdiv_pow || (unfold Rdiv; rewrite !Rpow_mult_distr, <- !Rinv_pow by lra). rewrite pow_add. pose proof (fact_pos k). pose proof (fact_pos q).
  pose proof (pow_lt (r + m) k ltac:(lra)). pose proof (pow_lt (r + m) (S q) ltac:(lra)). field. repeat split; lra.
Qed.

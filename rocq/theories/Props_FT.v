(** C73-C75: function objects computing with Tensors. *)
From Verif Require Import Prelude DenseModel AnalyticSpec NDArray NDProofs TensorModel TensorSpec TensorUfunc FuncModel FuncSpec FTModel FTSpec FTPrim FTWrap FTRep FTBuilt FTValue FTFindings DenseProofs.
From Verif Require FuncLemmas.
From Coquelicot Require Import Coquelicot.
From Coq Require Import Reals Lra Sorted.
Import List ListNotations.
Open Scope R_scope.
(** [tbuilt] without the restriction on the dim axes of Sums *)
#[local] Existing Instance loose.

(** *** C73: gradients and Hessians computed with Tensors are right *)
Theorem C73_derivatives : forall ss out D mf dep col f, tbuilt ss out D mf dep col f -> t_correct ss out D f.
Proof. exact tbuilt_correct. Qed.
Print Assumptions C73_derivatives.
(** every call returns *)
Theorem C73_no_errors : forall ss out D mf dep col f, tbuilt ss out D mf dep col f -> forall ps, are_pars ss ps -> D ps ->
  (exists v, t_call f ps = Ok v) /\
  (forall i, (i < length ss)%nat -> exists g, t_grad f ps i = Ok g) /\
  (forall i j, (i < length ss)%nat -> (j <= i)%nat -> exists h, t_hess f ps i j = Ok h).
Proof. intros ss out D mf dep col f T. exact (tc_total _ _ _ _ (tbuilt_correct _ _ _ _ _ _ _ T)). Qed.
Print Assumptions C73_no_errors.
(** the gradient in words: one partial derivative.  Entry [x] of parameter [i]
    moves, all other entries stay *)
Theorem C73_partial_derivative : forall ss out D mf dep col f, tbuilt ss out D mf dep col f ->
  forall c t i x n d, (i < length ss)%nat -> In x (indices (flat (nth i ss ([], [])))) -> In n (indices (fst out)) -> In d (indices (snd out)) ->
  par_curve ss c (fun j y => if Nat.eqb j i && eqb_idx y x then 1 else 0) t -> locally t (fun s => D (c s)) ->
  is_derive (fun s => at_res (t_call f (c s)) [] [] n d) t (at_res (t_grad f (c t) i) x [] n d).
Proof.
  intros ss out D mf dep col f T c t i x n d Hi Hx Hn Hd Hc Ld.
  pose proof (tc_grad _ _ _ _ (tbuilt_correct _ _ _ _ _ _ _ T) c _ t Hc Ld n d Hn Hd) as H.
  replace (at_res (t_grad f (c t) i) x [] n d) with (pairing ss (fun j y => at_res (t_grad f (c t) j) y [] n d) (fun j y => if Nat.eqb j i && eqb_idx y x then 1 else 0)); [exact H|].
  exact (pairing_unit ss _ i x Hi Hx).
Qed.
Print Assumptions C73_partial_derivative.

(** log-linear Poisson model: rates exp(a_i + b_j), a of length 2, b of length 3,
    probabilities up to a factor for 0..3 *)
Definition two_axes : list pst := [((2%nat :: nil), []); ((3%nat :: nil), [])].
Definition aX : tfun := t_wrap (mkW (0%nat :: nil) (0%nat :: nil) 2 [] 0 []) t_X.
Definition bX : tfun := t_wrap (mkW (1%nat :: nil) (1%nat :: nil) 2 [] 0 []) t_X.
Definition atoms2 : list tatom :=
  [mkTAtom 1 aX ([2; 1]%nat, []) (0%nat :: nil) (wdep (mkW (0%nat :: nil) (0%nat :: nil) 2 [] 0 []) (fun _ => true)) false;
   mkTAtom 1 bX ([1; 3]%nat, []) (1%nat :: nil) (wdep (mkW (1%nat :: nil) (1%nat :: nil) 2 [] 0 []) (fun _ => true)) false].
Definition linear2 : tfun := t_sum [(1, aX); (1, bX)] 0.
Definition rate2 : tfun := t_compose t_Exp (linear2 :: nil).
Definition poisson2 : tfun := t_compose (t_Poisson 4) (rate2 :: nil).
Lemma pos_two : Forall (fun s => posl (flat s)) two_axes.
Proof. repeat constructor. Qed.
Lemma wok k n : (k < n)%nat -> FuncLemmas.wmap_ok (mkW (k :: nil) (k :: nil) n [] 0 []) ((2 :: nil)%nat, []) /\ FuncLemmas.wmap_ok (mkW (k :: nil) (k :: nil) n [] 0 []) ((3 :: nil)%nat, []).
Proof. intros H. split; constructor; cbn; auto; repeat constructor; auto. Qed.
Lemma sing {A} (a : A) : NoDup (a :: nil).
Proof. constructor; [intros []|constructor]. Qed.
Lemma atoms2_bc : broadcastable (map ta_o atoms2).
Proof.
  repeat apply Forall_cons; [| |apply Forall_nil]; (split; [|constructor]); (constructor; [|constructor; [|constructor]]); cbn; auto.
Qed.
Lemma linear2_built : tbuilt two_axes ([2; 3]%nat, []) anyP [0%nat; 1%nat] (fun i => existsb (fun a => ta_dep a i) atoms2) false linear2.
Proof.
  apply (tb_sum two_axes anyP atoms2 0).
  - exact pos_two. - discriminate. - repeat constructor; cbn; lra. - exact atoms2_bc. - intros E; vm_compute in E; discriminate E.
  - apply loose_dims, atoms2_bc.
  - repeat constructor; intros f [<-|[]]; reflexivity.
  - now left.
  - intros a [<-|[<-|[]]]; cbn [ta_o ta_mf ta_dep ta_col ta_f].
    + apply (tb_domain _ _ (fun ps => anyP (map (fun k => nth k ps (PNum 0)) (0%nat :: nil)))); [intros; exact I|].
      apply (tb_wrap two_axes ((2 :: nil)%nat, []) anyP (seq 0 1) (fun _ => true) false (mkW (0%nat :: nil) (0%nat :: nil) 2 [] 0 []) t_X).
      * apply sing. * repeat constructor. * apply wok. lia. * left; repeat constructor. * now left. * apply (tb_X (2 :: nil)%nat). repeat constructor.
    + apply (tb_domain _ _ (fun ps => anyP (map (fun k => nth k ps (PNum 0)) (1%nat :: nil)))); [intros; exact I|].
      apply (tb_wrap two_axes ((3 :: nil)%nat, []) anyP (seq 0 1) (fun _ => true) false (mkW (1%nat :: nil) (1%nat :: nil) 2 [] 0 []) t_X).
      * apply sing. * repeat constructor. * apply wok. lia. * left; repeat constructor. * now left. * apply (tb_X (3 :: nil)%nat). repeat constructor.
Qed.
Lemma rate2_built : tbuilt two_axes ([2; 3]%nat, []) anyP [0%nat; 1%nat] (fun _ => true) false rate2.
Proof.
  apply (tb_domain _ _ (fun ps => (forall v, t_call linear2 ps = Ok v -> anyP (v :: nil)) /\ anyP ps)); [intros; split; [intros; exact I|exact I]|].
  apply (tb_compose two_axes ([2; 3]%nat, []) [] anyP anyP [0%nat; 1%nat] (fun i => existsb (fun a => ta_dep a i) atoms2) t_Exp linear2).
  - exact pos_two. - discriminate. - intros [|[|i]] Hi; [reflexivity|reflexivity|cbn in Hi; lia].
  - apply (o_Exp [2; 3]%nat). repeat constructor.
  - exact linear2_built.
Qed.
Lemma poisson2_built : tbuilt two_axes ([2; 3]%nat, (4 :: nil)%nat) anyP [0%nat; 1%nat] (fun _ => true) false poisson2.
Proof.
  apply (tb_domain _ _ (fun ps => (forall v, t_call rate2 ps = Ok v -> anyP (v :: nil)) /\ anyP ps)); [intros; split; [intros; exact I|exact I]|].
  apply (tb_compose two_axes ([2; 3]%nat, []) (4 :: nil)%nat anyP anyP [0%nat; 1%nat] (fun _ => true) (t_Poisson 4) rate2).
  - exact pos_two. - discriminate. - reflexivity.
  - apply o_Poisson; [repeat constructor|lia].
  - exact rate2_built.
Qed.
Lemma vecs_par u v : are_pars two_axes [vec 2 u; vec 3 v].
Proof. repeat constructor. Qed.
Example C73_nonvacuous : forall u v,
  t_correct two_axes ([2; 3]%nat, (4 :: nil)%nat) anyP poisson2 /\ are_pars two_axes [vec 2 u; vec 3 v] /\
  (exists h, t_hess poisson2 [vec 2 u; vec 3 v] 1 0 = Ok h).
Proof.
  intros u v. pose proof (tbuilt_correct _ _ _ _ _ _ _ poisson2_built) as C. split; [exact C|]. split; [apply vecs_par|].
  destruct (tc_total _ _ _ _ C _ (vecs_par u v) I) as (_ & _ & H). apply H; cbn; lia.
Qed.
Print Assumptions C73_nonvacuous.

(** *** C74: the values *)
Theorem C74_affine : forall ss out D mf dep col f a b ps n d, tbuilt ss out D mf dep col f -> a <> 0 -> b = 0 \/ col = false -> are_pars ss ps -> D ps ->
  In n (indices (fst out)) -> In d (indices (snd out)) ->
  at_res (t_call (t_affine f a b) ps) [] [] n d = a * at_res (t_call f ps) [] [] n d + b.
Proof. exact value_affine. Qed.
Print Assumptions C74_affine.
Theorem C74_wrap : forall ss o D mf dep col w f ps n d, NoDup (w_pm w) -> Forall (fun i => i < length ss)%nat (w_pm w) -> FuncLemmas.wmap_ok w o ->
  StronglySorted lt (w_pm w) \/ t_nullh f = true -> flip_fine w ss o mf dep col (t_nullh f) ->
  tbuilt (map (fun k => nth k ss ([], [])) (w_pm w)) o D mf dep col f ->
  are_pars ss ps -> D (map (fun k => nth k ps (PNum 0)) (w_pm w)) ->
  let out := FuncLemmas.w_out w o in
  In n (indices (fst out)) -> In d (indices (snd out)) ->
  at_res (t_call (t_wrap w f) ps) [] [] n d =
  at_res (t_call f (map (fun k => nth k ps (PNum 0)) (w_pm w))) [] [] (pull (w_fm w) (flip_idx (fst out) (w_flip w) n)) (pull (w_dm w) d).
Proof. exact value_wrap. Qed.
Print Assumptions C74_wrap.
Theorem C74_sum : forall ss D (ats : list tatom) b ps n d, Forall (fun s => posl (flat s)) ss -> ats <> [] -> Forall (fun a => ta_w a <> 0) ats ->
  broadcastable (map ta_o ats) -> flat (join (map ta_o ats)) <> [] ->
  Forall (fun a => forall f, In f (ta_mf a) -> nth f (fst (ta_o a)) 1%nat = nth f (fst (join (map ta_o ats))) 1%nat) ats ->
  b = 0 \/ forallb ta_col ats = false ->
  (forall a, In a ats -> tbuilt ss (ta_o a) D (ta_mf a) (ta_dep a) (ta_col a) (ta_f a)) ->
  are_pars ss ps -> D ps -> In n (indices (fst (join (map ta_o ats)))) -> In d (indices (snd (join (map ta_o ats)))) ->
  at_res (t_call (t_sum (map (fun a => (ta_w a, ta_f a)) ats) b) ps) [] [] n d =
  Rsum (fun a => ta_w a * at_res (t_call (ta_f a) ps) [] [] n d) ats + b.
Proof. exact value_sum. Qed.
Print Assumptions C74_sum.
Theorem C74_compose : forall ss o D mf dep f g ps, tbuilt ss o D mf dep false g -> are_pars ss ps -> D ps ->
  exists v, t_call g ps = Ok v /\ is_par o v /\ t_call (t_compose f (g :: nil)) ps = t_call f (v :: nil) /\
    (forall n d, In n (indices (fst o)) -> In d (indices (snd o)) -> pentry v (n ++ d) = at_res (t_call g ps) [] [] n d).
Proof. exact compose_value. Qed.
Print Assumptions C74_compose.
Theorem C74_primitives : forall sh p n, posl sh -> is_par (sh, []) p -> In n (indices sh) ->
  at_res (t_call t_Exp (p :: nil)) [] [] n [] = exp (pentry p n) /\
  ((forall x, In x (indices sh) -> 0 < pentry p x) -> at_res (t_call t_Log (p :: nil)) [] [] n [] = ln (pentry p n)) /\
  at_res (t_call t_Logistic (p :: nil)) [] [] n [] = 1 / (1 + exp (- pentry p n)) /\
  at_res (t_call t_ArcTan (p :: nil)) [] [] n [] = atan (pentry p n).
Proof. intros sh p n P Hp Hn. split; [now apply (value_Exp sh)|]. split; [intros; now apply (value_Log sh)|]. split; [now apply (value_Logistic sh)|now apply (value_ArcTan sh)]. Qed.
Print Assumptions C74_primitives.
Theorem C74_poisson : forall size s p n k, posl (flat s) -> (k < size)%nat -> is_par s p -> In n (indices (flat s)) ->
  at_res (t_call (t_Poisson size) (p :: nil)) [] [] n (k :: nil) = pentry p n ^ k / INR (fact k).
Proof. exact value_Poisson. Qed.
Print Assumptions C74_poisson.
(** the rates of the example are exp(a_i + b_j) *)
Example C74_nonvacuous : forall u v i j, (i < 2)%nat -> (j < 3)%nat ->
  at_res (t_call rate2 [vec 2 u; vec 3 v]) [] [] [i; j] [] = exp (u i + v j).
Proof.
  intros u v i j Hi Hj. destruct (C74_compose _ _ _ _ _ t_Exp linear2 _ linear2_built (vecs_par u v) I) as (w & Ew & Pw & Ec & Vw).
  assert (Hn : In [i; j] (indices [2; 3]%nat)) by (apply In_indices; constructor; [exact Hi|constructor; [exact Hj|constructor]]).
  unfold rate2. rewrite Ec. rewrite (value_Exp [2; 3]%nat w [i; j]); [|repeat constructor|exact Pw|exact Hn]. f_equal.
  pose proof (Vw [i; j] [] Hn (or_introl eq_refl)) as E. rewrite app_nil_r in E. rewrite E.
  pose proof (C74_sum two_axes anyP atoms2 0 [vec 2 u; vec 3 v] [i; j] [] pos_two ltac:(discriminate) ltac:(repeat constructor; cbn; lra) atoms2_bc ltac:(intros E'; vm_compute in E'; discriminate E')
    ltac:(repeat constructor; intros f [<-|[]]; reflexivity) (or_introl eq_refl)) as S.
  unfold linear2. change [(1, aX); (1, bX)] with (map (fun a => (ta_w a, ta_f a)) atoms2). rewrite S; [|clear|apply vecs_par|exact I|exact Hn|now left].
  - unfold atoms2. rewrite !Rsum_cons, Rsum_nil. cbn [ta_w ta_f].
    assert (A : at_res (t_call aX [vec 2 u; vec 3 v]) [] [] [i; j] [] = u i) by (destruct i as [|[|i]]; [cbn; ring|cbn; ring|lia]).
    assert (B : at_res (t_call bX [vec 2 u; vec 3 v]) [] [] [i; j] [] = v j) by (destruct j as [|[|[|j]]]; [cbn; ring|cbn; ring|cbn; ring|lia]).
    rewrite A, B. ring.
  - intros a [<-|[<-|[]]]; cbn [ta_o ta_mf ta_dep ta_col ta_f].
    + apply (tb_domain _ _ (fun ps => anyP (map (fun k => nth k ps (PNum 0)) (0%nat :: nil)))); [intros; exact I|].
      apply (tb_wrap two_axes ((2 :: nil)%nat, []) anyP (seq 0 1) (fun _ => true) false (mkW (0%nat :: nil) (0%nat :: nil) 2 [] 0 []) t_X).
      * apply sing. * repeat constructor. * apply wok. lia. * left; repeat constructor. * now left. * apply (tb_X (2 :: nil)%nat). repeat constructor.
    + apply (tb_domain _ _ (fun ps => anyP (map (fun k => nth k ps (PNum 0)) (1%nat :: nil)))); [intros; exact I|].
      apply (tb_wrap two_axes ((3 :: nil)%nat, []) anyP (seq 0 1) (fun _ => true) false (mkW (1%nat :: nil) (1%nat :: nil) 2 [] 0 []) t_X).
      * apply sing. * repeat constructor. * apply wok. lia. * left; repeat constructor. * now left. * apply (tb_X (3 :: nil)%nat). repeat constructor.
Qed.
Print Assumptions C74_nonvacuous.

(** *** C75: outside that class *)
Theorem C75_ignored_parameter_refuted : forall u v,
  axes_of (t_grad (t_compose t_Exp (first_of_two :: nil)) [vec 2 u; vec 3 v] 1) = Some (0, 1, 1, 0, [1; 2])%nat /\
  axes_of (t_hess (t_compose t_Exp (first_of_two :: nil)) [vec 2 u; vec 3 v] 1 0) = Some (0, 1, 2, 0, [1; 2; 2])%nat /\
  t_grad (t_wrap (mkW (0%nat :: nil) (0%nat :: nil) 1 [] 0 []) t_Exp) [vec 2 u; vec 3 v] 1 = Ok tzero.
Proof. intros u v. split; [apply ignored_grad|]. split; [apply ignored_hess|apply ignored_wrap]. Qed.
Print Assumptions C75_ignored_parameter_refuted.
Theorem C75_flip_refuted : forall u,
  axes_of (t_call (t_wrap (mkW (0%nat :: nil) (0%nat :: nil) 1 [] 0 (0%nat :: nil)) t_X) (vec 2 u :: nil)) = Some (0, 0, 1, 0, (2 :: nil))%nat /\
  t_grad (t_wrap (mkW (0%nat :: nil) (0%nat :: nil) 1 [] 0 (0%nat :: nil)) t_X) (vec 2 u :: nil) 0 = Raise NotImplementedError.
Proof. intros u. split; [ftc|apply flip_grad]. Qed.
Print Assumptions C75_flip_refuted.
Theorem C75_linear_outer_refuted : forall u w, w_pm w = (0%nat :: nil) ->
  t_call (t_wrap w (t_compose t_X (t_X :: nil))) (vec 2 u :: nil) = t_call (t_wrap w t_X) (vec 2 u :: nil) /\
  t_hess (t_wrap w t_X) (vec 2 u :: nil) 0 0 = Ok tzero /\
  t_hess (t_wrap w (t_compose t_X (t_X :: nil))) (vec 2 u :: nil) 0 0 = Raise AttributeError.
Proof. intros u w H. split; [now apply wrap_linear_call|]. split; [reflexivity|now apply wrap_linear_hess]. Qed.
Print Assumptions C75_linear_outer_refuted.
Theorem C75_zero_scalar_refuted :
  axes_of (t_call shifted (PNum 1 :: nil)) = Some (0, 0, 2, 0, [1; 1])%nat /\ t_call shifted (PNum 0 :: nil) = Raise AssertionError.
Proof. exact (conj shifted_one shifted_zero). Qed.
Print Assumptions C75_zero_scalar_refuted.
Theorem C75_rank_depends_on_value : axes_of (t_call spread (PNum 0 :: nil)) = Some (0, 0, 0, 0, [])%nat /\
  forall c, c <> 0 -> axes_of (t_call spread (PNum c :: nil)) = Some (0, 0, 1, 0, (1 :: nil))%nat.
Proof. split; [exact spread_zero|exact spread_one]. Qed.
Print Assumptions C75_rank_depends_on_value.

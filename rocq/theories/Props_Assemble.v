(** Properties C11, C13, C14.  Statements only; the vocabulary is in
    AssembleSpec.v ([free_coords], [pen_grad], [full_hess], [registered], ...)
    and, for C11, [linear_fun], [mat_vec], [move] in AssembleNewton.v.
    The scalars are any commutative ring. *)
From Coq Require Import Ring_theory.
From Verif Require Import Prelude ParamModel ParamSpec AssembleModel AssembleSpec
  AssembleProofs AssembleHess AssembleNewton AssembleExamples.

Theorem C13_flat_gradient :
  forall (A : Type) (zero one : A) (add mul sub : A -> A -> A) (opp : A -> A),
  ring_theory zero one add mul sub opp (@eq A) ->
  forall ps glike cs rs,
  ps <> [] -> grad_shaped ps glike -> Forall (registered ps) cs -> Forall (registered ps) rs ->
  flat_grad A zero add sub mul ps glike cs rs =
  Ok (map (fun '(i, a) => sub (nth a (nth i glike []) zero)
             (sumA zero add (fun c => sumA zero add (fun p => fgrad zero ps c p a) (occurrences (fst c) i)) rs))
          (free_coords ps)
      ++ map (fvalue zero ps) cs).
Proof. exact @flat_grad_spec. Qed.
Print Assumptions C13_flat_gradient.

(** A constraint registered with an empty parameter list makes every gradient
    evaluation raise ValueError. *)
Theorem C13_empty_param_map_raises :
  forall (A : Type) (zero one : A) (add mul sub : A -> A -> A) (opp : A -> A),
  ring_theory zero one add mul sub opp (@eq A) ->
  forall ps glike cs1 cs2 rs g,
  ps <> [] -> grad_shaped ps glike -> Forall (registered ps) (cs1 ++ cs2) -> Forall (registered ps) rs ->
  (exists gg, sf_grad g [] = Ok gg) ->
  flat_grad A zero add sub mul ps glike (cs1 ++ ([], g) :: cs2) rs = Raise ValueError.
Proof. exact @flat_grad_empty_map. Qed.
Print Assumptions C13_empty_param_map_raises.

Example C13_nonvacuous :
  Forall (registered exA_ps) exA_cs /\ Forall (registered exA_ps) exA_rs /\ grad_shaped exA_ps exA_g /\
  flat_grad Z 0%Z Z.add Z.sub Z.mul exA_ps exA_g exA_cs exA_rs = Ok [5; 30; 32; 49; 17]%Z.
Proof. repeat split; try apply exA_cs_registered; try apply exA_rs_registered; apply exA_g_shaped. Qed.

(** Rows and columns: first the free coordinates, then one per constraint.
    [full_hess] is the likelihood Hessian entry minus the regularizations'. *)
Theorem C14_flat_hessian :
  forall (A : Type) (zero one : A) (add mul sub : A -> A -> A) (opp : A -> A),
  ring_theory zero one add mul sub opp (@eq A) ->
  forall ps hlike cs rs,
  ps <> [] -> hess_shaped ps hlike -> Forall (registered ps) cs -> Forall (registered ps) rs ->
  Forall (fun c => ascending (fst c)) (cs ++ rs) ->
  flat_hess A zero add sub mul ps hlike cs rs = Ok
   (map (fun ia => map (full_hess zero add sub ps hlike rs ia) (free_coords ps) ++
                   map (fun c => dfun zero add ps c (fst ia) (snd ia)) cs) (free_coords ps) ++
    map (fun c => map (fun jb => dfun zero add ps c (fst jb) (snd jb)) (free_coords ps) ++
                  repeat zero (length cs)) cs).
Proof.
  intros A zero one add mul sub opp RT ps hlike cs rs H1 H2 H3 H4 H5.
  destruct (flat_hess_spec zero one add mul sub opp RT ps hlike cs rs H1 H2 H3 H4) as [[_ E]|[Hx _]]; auto.
  exfalso. apply Exists_exists in Hx. destruct Hx as (c & Hin & Hn). rewrite Forall_forall in H5. auto.
Qed.
Print Assumptions C14_flat_hessian.

Theorem C14_symmetric :
  forall (A : Type) (zero one : A) (add mul sub : A -> A -> A) (opp : A -> A),
  ring_theory zero one add mul sub opp (@eq A) ->
  forall ps hlike cs rs M,
  ps <> [] -> hess_shaped ps hlike -> Forall (registered ps) cs -> Forall (registered ps) rs ->
  (forall i a b, i < length ps -> a < size_of ps i -> b < size_of ps i ->
     pen_hess zero add sub ps hlike rs i a i b = pen_hess zero add sub ps hlike rs i b i a) ->
  flat_hess A zero add sub mul ps hlike cs rs = Ok M ->
  forall r c, nth c (nth r M []) zero = nth r (nth c M []) zero.
Proof.
  intros A zero one add mul sub opp RT ps hlike cs rs M H1 H2 H3 H4 H5 E.
  destruct (flat_hess_spec zero one add mul sub opp RT ps hlike cs rs H1 H2 H3 H4) as [[_ E']|[_ E']];
    rewrite E' in E; [|discriminate]. injection E as <-.
  exact (assembled_sym zero add sub ps hlike cs rs H5).
Qed.
Print Assumptions C14_symmetric.

Theorem C14_unordered_param_map_raises :
  forall (A : Type) (zero one : A) (add mul sub : A -> A -> A) (opp : A -> A),
  ring_theory zero one add mul sub opp (@eq A) ->
  forall ps hlike cs rs c,
  ps <> [] -> hess_shaped ps hlike -> Forall (registered ps) cs -> Forall (registered ps) rs ->
  In c (cs ++ rs) -> ~ ascending (fst c) ->
  flat_hess A zero add sub mul ps hlike cs rs = Raise IndexError.
Proof.
  intros A zero one add mul sub opp RT ps hlike cs rs c H1 H2 H3 H4 H5 H6.
  destruct (flat_hess_spec zero one add mul sub opp RT ps hlike cs rs H1 H2 H3 H4) as [[Hf _]|[_ E]]; auto.
  rewrite Forall_forall in Hf. exfalso; auto.
Qed.
Print Assumptions C14_unordered_param_map_raises.

Example C14_nonvacuous :
  hess_shaped exA_ps exA_h /\ Forall (fun c => ascending (fst c)) (exA_cs ++ exA_rs) /\
  (forall i a b, i < length exA_ps -> a < size_of exA_ps i -> b < size_of exA_ps i ->
     pen_hess 0%Z Z.add Z.sub exA_ps exA_h exA_rs i a i b = pen_hess 0%Z Z.add Z.sub exA_ps exA_h exA_rs i b i a) /\
  flat_hess Z 0%Z Z.add Z.sub Z.mul exA_ps exA_h exA_cs exA_rs = Ok
   [ [1; 3; 11; 13; 1]; [3; 6; 13; 16; 1]; [11; 13; 5; 8; 2]; [13; 16; 8; 9; 2]; [1; 1; 2; 2; 0] ]%Z.
Proof.
  split; [apply exA_h_shaped|]. split; [|split; [|reflexivity]].
  - repeat constructor; intros [|[|p]] [|[|q]] [? ?]; cbn in *; lia.
  - intros i a b Hi Ha Hb. destruct i as [|[|i]]; cbn in Hi; try lia;
      (destruct a as [|[|[|a]]]; cbn in Ha; try lia); (destruct b as [|[|[|b]]]; cbn in Hb; try lia); reflexivity.
Qed.

(** [x] is any exact solution of the linear system of a Newton step; its first
    [n_free] components are the step (C12).  After moving by a multiple [m] of
    the step, every linear constraint has (1 - m) times its former value: 0
    after an undamped step (m = 1), and still 0 when it was 0 before. *)
Theorem C11_linear_constraints :
  forall (A : Type) (zero one : A) (add mul sub : A -> A -> A) (opp : A -> A),
  ring_theory zero one add mul sub opp (@eq A) ->
  forall ps glike hlike cs rs M v x m ps' pm g c0 coef,
  ps <> [] -> Forall param_wf ps ->
  Forall (registered ps) cs -> Forall (registered ps) rs ->
  grad_shaped ps glike -> hess_shaped ps hlike ->
  flat_grad A zero add sub mul ps glike cs rs = Ok v ->
  flat_hess A zero add sub mul ps hlike cs rs = Ok M ->
  length x = length v -> mat_vec zero add mul M x = v ->
  reshape_params ps (move mul sub (free_entries ps) m (firstn (n_free ps) x)) = Ok ps' ->
  In (pm, g) cs -> linear_fun zero add mul g c0 coef -> length coef = length pm ->
  (forall p, p < length pm -> length (nth p coef []) = size_of ps (nth p pm 0)) ->
  exists val, sf_val g (args_of ps pm) = Ok val /\
              sf_val g (args_of ps' pm) = Ok (mul (sub one m) val).
Proof. exact @newton_constraint. Qed.
Print Assumptions C11_linear_constraints.

Theorem C11_undamped_step_satisfies_constraints :
  forall (A : Type) (zero one : A) (add mul sub : A -> A -> A) (opp : A -> A),
  ring_theory zero one add mul sub opp (@eq A) ->
  forall ps glike hlike cs rs M v x ps' pm g c0 coef,
  ps <> [] -> Forall param_wf ps ->
  Forall (registered ps) cs -> Forall (registered ps) rs ->
  grad_shaped ps glike -> hess_shaped ps hlike ->
  flat_grad A zero add sub mul ps glike cs rs = Ok v ->
  flat_hess A zero add sub mul ps hlike cs rs = Ok M ->
  length x = length v -> mat_vec zero add mul M x = v ->
  reshape_params ps (move mul sub (free_entries ps) one (firstn (n_free ps) x)) = Ok ps' ->
  In (pm, g) cs -> linear_fun zero add mul g c0 coef -> length coef = length pm ->
  (forall p, p < length pm -> length (nth p coef []) = size_of ps (nth p pm 0)) ->
  sf_val g (args_of ps' pm) = Ok zero.
Proof.
  intros A zero one add mul sub opp RT ps glike hlike cs rs M v x ps' pm g c0 coef H1 H2 H3 H4 H5 H6 H7 H8 H9 H10 H11 H12 H13 H14 H15.
  destruct (newton_constraint zero one add mul sub opp RT ps glike hlike cs rs M v x one ps' pm g c0 coef) as (val & _ & E); auto.
  rewrite E. f_equal. rewrite (Rsub_def RT), (Ropp_def RT).
  (* 0 * val = 0 *)
  rewrite <- (Radd_0_l RT (mul zero val)).
  rewrite <- (Ropp_def RT (mul zero val)) at 1.
  rewrite <- (Radd_assoc RT), (Radd_comm RT (opp (mul zero val))), (Radd_assoc RT).
  rewrite <- (Rdistr_l RT), (Radd_0_l RT). apply (Ropp_def RT).
Qed.
Print Assumptions C11_undamped_step_satisfies_constraints.

(** Non-vacuous: with H = identity-like blocks over Z an integral solution
    exists. *)
Definition exN_ps : list (param Z) := [ mkParam [3] [1; 2; 3]%Z [false; true; false] ].
Definition exN_lin : sfunc Z :=
  Build_sfunc Z
   (fun args => Ok (-10 + sumA 0 Z.add (fun p => dotp 0 Z.add Z.mul (nth p [[1; 1; 1]] []) (p_vals (nth p args noparam))) (seq 0 1))%Z)
   (fun args => Ok [[1; 1; 1]%Z]) (fun args => Ok [[[0%Z]]]).
Definition exN_cs := [([0], exN_lin)].
Definition exN_h : list (list (list Z)) := [[[-1; 0; 0; 0; -1; 0; 0; 0; -1]%Z]].
Definition exN_g : list (list Z) := [[2; 5; 6]%Z].
Example C11_nonvacuous : exists M v x ps',
  flat_grad Z 0%Z Z.add Z.sub Z.mul exN_ps exN_g exN_cs [] = Ok v /\
  flat_hess Z 0%Z Z.add Z.sub Z.mul exN_ps exN_h exN_cs [] = Ok M /\
  length x = length v /\ mat_vec 0%Z Z.add Z.mul M x = v /\
  reshape_params exN_ps (move Z.mul Z.sub (free_entries exN_ps) 1%Z (firstn (n_free exN_ps) x)) = Ok ps' /\
  sf_val exN_lin exN_ps = Ok (-4)%Z /\ map p_vals ps' = [[1; 2; 7]%Z] /\ sf_val exN_lin ps' = Ok 0%Z /\
  Forall (registered exN_ps) exN_cs /\ linear_fun 0%Z Z.add Z.mul exN_lin (-10)%Z [[1; 1; 1]%Z].
Proof.
  exists [[-1; 0; 1]; [0; -1; 1]; [1; 1; 0]]%Z, [2; 6; -4]%Z, [0; -4; 2]%Z. eexists.
  repeat split; try reflexivity; try (intros ? ? ?; split; reflexivity).
  repeat constructor; cbn; try lia; try discriminate.
  - eexists; reflexivity.
  - eexists; split; [reflexivity|]. split; [reflexivity|]. intros [|p] Hp; [left; reflexivity|cbn in Hp; lia].
  - eexists; split; [reflexivity|]. split; [reflexivity|]. intros [|p] Hp; cbn in *; [|lia].
    split; auto. intros [|q] Hq; [right; reflexivity|lia].
Qed.

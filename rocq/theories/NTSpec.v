(** Fitting a MaxLike object: the objective, its derivatives and what the object
    must be made of.  The specification used in Props_NT.v. *)
From Coq Require Import String.
From Verif Require Import Prelude DenseModel AnalyticSpec NDArray NDProofs TensorModel TensorSpec TensorUfunc FuncModel FuncSpec FTModel FTSpec FTRep FTBuilt LTModel LTSpec ETModel ETSpec ParamModel ParamSpec AssembleModel AssembleSpec OTModel OTSpec FitModel FitSpec.
From Coquelicot Require Import Coquelicot.
From Coq Require Import Reals Sorted.
From Verif Require Import NTModel.
Import List ListNotations.
Open Scope R_scope.

(** the data attribute [k] *)
Definition data (d : string -> option tensor) (k : string) : pval := match d k with Some t => PT t | None => PNum 0 end.
(** the data each class uses *)
Definition data_names (c : mlclass) : list string :=
  match c with ZeroInflatedPoisson _ _ => ["N"; "X"; "Z"]%string | Finite _ => ("N"%string :: nil) | NormalizedFinite _ => ("N"%string :: nil) | _ => ["N"; "X"]%string end.

(** the log-likelihood of the data when the fitted values are those of [f] *)
Definition log_likelihood (c : mlclass) (d : string -> option tensor) (dat : pst) (f : tfun) (ps : list pval) : R :=
  let X := cell (data d "X") in let N := cell (data d "N") in let Z := cell (data d "Z") in
  let y := fitted f ps in
  match c with
  | Poisson gammaln => over dat (fun n k => X n k * y n k - N n k * exp (y n k) - gammaln (X n k + 1))
  | ZeroInflatedPoisson gammaln s => over dat (fun n k => X n k * y n k + Z n k * ln s - N n k * ln (exp (exp (y n k)) + s - 1) - gammaln (X n k + 1))
  | Logistic => over dat (fun n k => - (N n k * ln (1 + exp (- y n k)) + (N n k - X n k) * y n k))
  | Finite _ => over dat (fun n k => N n k * (ln (y n k) - ln (fitted_total dat f ps n)))
  | NormalizedFinite _ => over dat (fun n k => N n k * ln (y n k))
  | NegativeBinomial gammaln r => over dat (fun n k => gammaln (X n k + r) - gammaln (X n k + 1) + r * ln r - gammaln r + X n k * y n k - (X n k + r * N n k) * ln (r + exp (y n k)))
  end.

(** as [model_for] and [full_model_for] (LTSpec.v), for objects with eval *)
Record emodel_for (ss : list pst) (dat : pst) (D : list pval -> Prop) (o : tobj) : Prop := mkEM {
  em_built : exists out mf dep, @ebuilt loose ss out D mf dep false o /\
    (forall i, (i < length ss)%nat -> dep i = true) /\
    ax_le (fst out) (fst dat) /\ ax_le (snd out) (snd dat) /\
    (forall k, In k mf -> nth k (fst out) 1%nat = nth k (fst dat) 1%nat);
  em_params : Forall (fun s => posl (flat s)) ss;
  em_data : posl (flat dat) /\ flat dat <> [] }.
Record full_emodel_for (ss : list pst) (dat : pst) (D : list pval -> Prop) (o : tobj) : Prop := mkFEM {
  fem_built : exists out mf dep, @ebuilt full_dims ss out D mf dep false o /\
    (forall i, (i < length ss)%nat -> dep i = true) /\
    ax_le (fst out) (fst dat) /\ snd out = snd dat /\
    (forall k, In k mf -> nth k (fst out) 1%nat = nth k (fst dat) 1%nat);
  fem_params : Forall (fun s => posl (flat s)) ss;
  fem_data : posl (flat dat) /\ fst dat <> [] }.
Definition positive_fit (dat : pst) (f : tfun) (ps : list pval) : Prop :=
  forall n k, In n (indices (fst dat)) -> In k (indices (snd dat)) -> 0 < fitted f ps n k.

(** what the class asks of its model and of its constructor's arguments *)
Definition class_ok (ss : list pst) (dat : pst) (D : list pval -> Prop) (c : mlclass) (o : tobj) : Prop :=
  match c with
  | Finite _ => full_emodel_for ss dat D o /\ forall ps, are_pars ss ps -> D ps -> positive_fit dat (o_f o) ps
  | NormalizedFinite _ => emodel_for ss dat D o /\ forall ps, are_pars ss ps -> D ps -> positive_fit dat (o_f o) ps
  | ZeroInflatedPoisson _ s => emodel_for ss dat D o /\ 0 < s
  | NegativeBinomial _ r => emodel_for ss dat D o /\ 0 < r
  | _ => emodel_for ss dat D o
  end.
(** an object ready to be fitted to the data [d] with axes [dat], for parameters
    with axes [ss] in the domain [D]; its constraints are [cons] and its
    regularizations [regs] *)
Record fit_problem (ss : list pst) (dat : pst) (D : list pval -> Prop) (m : maxlike) (d : string -> option tensor) (cons regs : list term) : Prop := mkFP {
  fp_class : class_ok ss dat D (ml_class m) (ml_model m);
  fp_data : forall k, In k (data_names (ml_class m)) -> exists t, d k = Some t /\ is_data dat (PT t);
  fp_con : ml_con m = map registration cons;
  fp_reg : ml_reg m = map registration regs;
  fp_maps : forall c, In c (cons ++ regs) ->
    tm_map c <> [] /\ StronglySorted lt (tm_map c) /\ Forall (fun k => k < length ss)%nat (tm_map c) /\
    forall ps, are_pars ss ps -> D ps -> tm_dom c (sub_args (tm_map c) ps);
  fp_cons : forall c, In c cons -> constraint (sub_axes (tm_map c) ss) (tm_dom c) (tm_fun c) (tm_val c) (tm_der c);
  fp_regs : forall c, In c regs -> penalty (sub_axes (tm_map c) ss) (tm_dom c) (tm_fun c) (tm_val c);
  (** for parameters in the domain, each entry can be changed a little *)
  fp_open : forall q, params_ok q -> axes q = ss -> D (map arr_of q) -> inside D q }.

(** the penalized log-likelihood at the parameters [q] *)
Definition goal (m : maxlike) (d : string -> option tensor) (dat : pst) (regs : list term) (q : list (param R)) : R :=
  penalized (log_likelihood (ml_class m) d dat (o_f (ml_model m))) regs (map arr_of q).
(** the value of a constraint at [q] *)
Definition con_value (c : term) (q : list (param R)) : R := term_at (map arr_of q) c.
(** partial derivative with respect to entry [a] of parameter [i] *)
Definition partial (f : list (param R) -> R) (i a : nat) (q : list (param R)) : R :=
  Derive (fun t => f (set_entry q i a t)) (entry_of q i a).
Definition is_partial (f : list (param R) -> R) (i a : nat) (q : list (param R)) (l : R) : Prop :=
  is_derive (fun t => f (set_entry q i a t)) (entry_of q i a) l.
(** [G] is the gradient of [f] in the free entries of [x] followed by the values of
    the constraints; [H] is the bordered Hessian *)
Record newton_system (f : list (param R) -> R) (cons : list term) (x : list (param R)) (G : list R) (H : list (list R)) : Prop := mkNS {
  ns_size : let n := (n_free x + length cons)%nat in length G = n /\ length H = n /\ forall k, (k < n)%nat -> length (nth k H []) = n;
  ns_grad : forall k i a, nth_error (free_coords x) k = Some (i, a) -> is_partial f i a x (nth k G 0);
  ns_con : forall k c, nth_error cons k = Some c -> nth (n_free x + k) G 0 = con_value c x;
  ns_hess : forall k l i a j b, nth_error (free_coords x) k = Some (i, a) -> nth_error (free_coords x) l = Some (j, b) ->
    is_partial (partial f i a) j b x (nth l (nth k H []) 0);
  ns_border : forall k c l j b, nth_error cons k = Some c -> nth_error (free_coords x) l = Some (j, b) ->
    is_partial (con_value c) j b x (nth l (nth (n_free x + k) H []) 0);
  ns_sym : forall k l, (k < n_free x + length cons)%nat -> (l < n_free x + length cons)%nat -> nth l (nth k H []) 0 = nth k (nth l H []) 0;
  ns_corner : forall k l, (n_free x <= k < n_free x + length cons)%nat -> (n_free x <= l < n_free x + length cons)%nat -> nth l (nth k H []) 0 = 0 }.
(** [x] solves [A x = b] *)
Definition solves (A : list (list R)) (x b : list R) : Prop :=
  length x = length b /\ forall k, (k < length b)%nat -> Rsum (fun l => nth l (nth k A []) 0 * nth l x 0) (seq 0 (length x)) = nth k b 0.
(** [q] is [x] with the free entries moved by [- mult * step] *)
Definition moved_by (mult : R) (step : list R) (x q : list (param R)) : Prop :=
  same_frame x q /\ forall k, (k < n_free x)%nat -> nth k (free_entries q) 0 = nth k (free_entries x) 0 - mult * nth k step 0.
(** sum of the counts *)
Definition total (d : string -> option tensor) (dat : pst) : R := over dat (cell (data d "N")).
(** a constraint whose value is an affine function of the entries *)
Definition affine_term (ss : list pst) (c : term) : Prop :=
  exists b (w : nat -> idx -> R), forall ps, are_pars ss ps -> arrays ps ->
    term_at ps c = b + over_params ss (fun i x => w i x * par_entry ps i x).

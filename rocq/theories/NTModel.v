(** MaxLike.fit on Tensors: the loop of FitModel.v (maxlike_base.py:418-562) put
    together with the function objects (FTModel.v, ETModel.v), the likelihood
    classes (LTModel.v) and the objective, flat gradient and flat Hessian
    (OTModel.v).  Numbers are reals.

    Simplifications: those of the models used; numpy.linalg.solve, scipy's pinvh
    and numpy's products in the Broyden update are parameters, any functions that
    may raise; before data are given, the attributes X, N, Z are None and using
    them raises some exception, here TypeError. *)
From Coq Require Import String.
From Verif Require Import Prelude DenseModel NDArray TensorModel TensorSpec TensorUfunc FuncModel FTModel LTModel ETModel ParamModel AssembleModel OTModel FitModel.
From Coq Require Import Reals.
Import List ListNotations.
Open Scope R_scope.

(** the class of the object with its constructor's arguments, maxlike.py:6-238 *)
Inductive mlclass :=
| Poisson (gammaln : R -> R)
| ZeroInflatedPoisson (gammaln : R -> R) (s : R)
| Logistic
| Finite (dim : nat)
| NormalizedFinite (dim : nat)
| NegativeBinomial (gammaln : R -> R) (scale : R).
(** maxlike_base.py:462: getattr(self, 'dim', 0) *)
Definition class_dim (c : mlclass) : nat := match c with Finite d => d | NormalizedFinite d => d | _ => O end.
(** self.X, self.N, self.Z *)
Definition attr (d : string -> option tensor) (k : string) : res pval :=
  match d k with Some t => Ok (PT t) | None => Raise TypeError end.
(** the methods like, grad_like, hess_like of the object with the data [d] *)
Definition est_of (c : mlclass) (d : string -> option tensor) : res est :=
  let! N := attr d "N" in
  match c with
  | Poisson g => let! X := attr d "X" in Ok (e_Poisson g X N)
  | ZeroInflatedPoisson g s => let! X := attr d "X" in let! Z := attr d "Z" in Ok (e_ZIP g s X N Z)
  | Logistic => let! X := attr d "X" in Ok (e_Logistic X N)
  | Finite _ => Ok (e_Finite N)
  | NormalizedFinite _ => Ok (e_NormFinite N)
  | NegativeBinomial g r => let! X := attr d "X" in Ok (e_NegBin g r X N)
  end.

(** an object before fitting: class, model, constraints and regularizations *)
Record maxlike := mkMaxLike { ml_class : mlclass; ml_model : tobj; ml_con : list (list nat * tfun); ml_reg : list (list nat * tfun) }.
(** ... with data, and with [f] for the methods of its model *)
Definition with_data (m : maxlike) (f : tfun) (d : string -> option tensor) : res mlobj :=
  let! e := est_of (ml_class m) d in
  let! N := attr d "N" in Ok (mkML e f N (ml_con m) (ml_reg m)).

(** numpy and scipy *)
Record linalg := mkLA {
  la_solve : list (list R) -> list R -> res (list R);
  la_pinvh : list (list R) -> res (list (list R));
  la_dot : list (list R) -> list R -> res (list R);
  la_broyden : list (list R) -> list R -> list R -> res (list (list R)) }.
Definition Rge_b (a b : R) : bool := if Rge_dec a b then true else false.
Definition Rlt_b (a b : R) : bool := if Rlt_dec a b then true else false.
(** Python's division of floats *)
Definition Rdiv_py (a b : R) : res R := if Req_EM_T b 0 then Raise ZeroDivisionError else Ok (a / b).

(** what the loop uses, maxlike_base.py:94-104, 321-416, 418-430 *)
Definition fit_of (m : maxlike) (la : linalg) : estimator R (list (list R)) pval (list pval) (list (list pval)) tensor := {|
  f_sub := Rminus; f_add := Rplus; f_mul := Rmult; f_neg := Ropp; f_abs := Rabs; f_one := 1; f_half := 1 / 2;
  f_div := Rdiv_py; f_ge := Rge_b; f_lt := Rlt_b;
  model_eval := fun ps => o_eval (ml_model m) (map arr_of ps);
  model_call := fun ps => t_call (o_f (ml_model m)) (map arr_of ps);
  model_grad := fun ps => ders (o_f (ml_model m)) (map arr_of ps);
  FitModel.objective := fun d ps y => let! o := with_data m (o_f (ml_model m)) d in objective_at o ps y;
  FitModel.flat_grad := fun d ps y der => let! o := with_data m (o_f (ml_model m)) d in flat_grad_at o ps y der;
  FitModel.flat_hess := fun d ps y der hs => let! o := with_data m (o_f (ml_model m)) d in flat_hess_at o ps y der hs;
  np_solve := la_solve la; sp_pinvh := la_pinvh la; m_nrows := @List.length _; m_dot := la_dot la; broyden_update := la_broyden la;
  n_constraints := List.length (ml_con m) |}.
(** maxlike_base.py:463-464: self.__dict__[k] = Tensor(kwargs[k], dim=dim) *)
Definition data_args (dim : nat) (kw : list (string * nda)) : list (string * res tensor) :=
  map (fun '(k, a) => (k, Tensor a 0 0 dim [] [])) kw.
(** maxlike_base.py:432-562: m.fit(tol, max_steps, verbose, method, **kw) *)
Definition ml_fit (m : maxlike) (la : linalg) (tol : R) (max_steps : Z) (verbose : nat) (method : string) (kw : list (string * nda))
    (s : state R (list (list R)) tensor) : list (event R) * state R (list (list R)) tensor * res bool :=
  fit (fit_of m la) tol max_steps verbose method (data_args (class_dim (ml_class m)) kw) s.

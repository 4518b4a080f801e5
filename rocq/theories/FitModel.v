(** Model of [MaxLike.newton_step] and [MaxLike.fit]
    (/repo/maxlike/maxlike_base.py:418-562) as a state machine.

    Everything the fit calls is an oracle that may return any value or raise
    any exception: the model ([eval], call, [grad]), the objective [g]
    (maxlike_base.py:94-104), [flat_grad], [flat_hess], numpy's [solve] and
    scipy's [pinvh].  Numbers are of an arbitrary type [F] with arbitrary
    operations and comparisons, so IEEE doubles with NaN are an instance.
    Exceptions that are not subclasses of Exception (KeyboardInterrupt) are
    not modelled. *)
From Coq Require Import String Ascii.
From Verif Require Import Prelude ParamModel.

(** Python [str.lower] on ASCII letters. *)
Definition lower_ascii (c : ascii) : ascii :=
  let n := nat_of_ascii c in
  if (65 <=? n) && (n <=? 90) then ascii_of_nat (n + 32) else c.
Fixpoint lower (s : string) : string :=
  match s with
  | EmptyString => EmptyString
  | String c r => String (lower_ascii c) (lower r)
  end.

Section Fit.
Variables (F M Y D H T : Type).

Record estimator := {
  (* number type *)
  f_sub : F -> F -> F;  f_add : F -> F -> F;  f_mul : F -> F -> F;  f_neg : F -> F;
  f_abs : F -> F;  f_one : F;  f_half : F;
  f_div : F -> F -> res F;           (* Python float division: may raise ZeroDivisionError *)
  f_ge : F -> F -> bool;  f_lt : F -> F -> bool;
  (* self.model *)
  model_eval : list (param F) -> res (Y * D * H);
  model_call : list (param F) -> res Y;
  model_grad : list (param F) -> res D;
  (* self.g(params, y), self.flat_grad, self.flat_hess, which read the data attributes *)
  objective : (string -> option T) -> list (param F) -> Y -> res F;
  flat_grad : (string -> option T) -> list (param F) -> Y -> D -> res (list F);
  flat_hess : (string -> option T) -> list (param F) -> Y -> D -> H -> res M;
  (* linear algebra *)
  np_solve : M -> list F -> res (list F);
  sp_pinvh : M -> res M;
  m_nrows : M -> nat;                (* J.shape[0] *)
  m_dot : M -> list F -> res (list F);
  (* J + outer(step - J dgrad, dgrad) / (dgrad*dgrad).sum(), line 550 *)
  broyden_update : M -> list F -> list F -> res M;
  n_constraints : nat                (* len(self.constraint) *)
}.
Variable E : estimator.

(** Attributes of the object that [fit] reads or writes.  [s_data] are the data
    attributes (N, X, Z, ...). *)
Record state := mkState {
  s_params : list (param F);
  s_hess : option M;          (* flat_hess_, absent before the first fit *)
  s_conv : bool;              (* converged *)
  s_data : string -> option T
}.
Definition set_params s ps := mkState ps (s_hess s) (s_conv s) (s_data s).
Definition set_hess s h := mkState (s_params s) (Some h) (s_conv s) (s_data s).
Definition set_conv s b := mkState (s_params s) (s_hess s) b (s_data s).
Definition set_data s k t :=
  mkState (s_params s) (s_hess s) (s_conv s)
          (fun k' => if String.eqb k' k then Some t else s_data s k').

(** Observable events: a Newton step computed, a trial point evaluated with
    its multiplier, a line printed. *)
Inductive event :=
| EvStep (ps : list (param F))
| EvTrial (mult : F) (flat : list F)
| EvPrint.

(** numpy 1-d broadcasting of a binary operation. *)
Definition v_op (op : F -> F -> F) (a b : list F) : res (list F) :=
  if length a =? length b then Ok (map (fun '(x, y) => op x y) (combine a b))
  else match b with
       | [y] => Ok (map (fun x => op x y) a)
       | _ => match a with [x] => Ok (map (op x) b) | _ => Raise ValueError end
       end.
(** in-place [a += b]: the result must have the length of [a]. *)
Definition v_iadd (a b : list F) : res (list F) :=
  if length a =? length b then Ok (map (fun '(x, y) => f_add E x y) (combine a b))
  else match b with [y] => Ok (map (fun x => f_add E x y) a) | _ => Raise ValueError end.

(** maxlike_base.py:428 and 527: [(-(c_len + 1) % n) + 1], the bound of the
    slice that drops the multipliers.  Python's % has the sign of the divisor,
    as [Z.modulo]; n = 0 raises ZeroDivisionError. *)
Definition cut_index (c_len n : nat) : res nat :=
  if n =? 0 then Raise ZeroDivisionError
  else Ok (Z.to_nat ((- (Z.of_nat c_len + 1)) mod (Z.of_nat n) + 1)%Z).

(** maxlike_base.py:418-430 [newton_step]. *)
Definition newton_step (d : string -> option T) (ps : list (param F)) : res (list F * F * list F * M) :=
  let! (y, der, hess) := model_eval E ps in
  let! g := objective E d ps y in
  let! lgrad := flat_grad E d ps y der in
  let! lhess := flat_hess E d ps y der hess in
  let! step := np_solve E lhess lgrad in
  let! i1 := cut_index (n_constraints E) (length step) in
  Ok (firstn i1 step, g, lgrad, lhess).

(** [self.g(params, self.model(params))] (line 489), [self.g(params)] (lines 510, 536). *)
Definition g_at (d : string -> option T) (ps : list (param F)) : res F :=
  let! y := model_call E ps in objective E d ps y.

(** maxlike_base.py:503 and 541: [abs(prev_g / g - 1) < tol]. *)
Definition criterion (prev_g g tol : F) : res bool :=
  let! q := f_div E prev_g g in Ok (f_lt E (f_abs E (f_sub E q (f_one E))) tol).

(** Result of the inner loop. *)
Inductive inner_res :=
| Accepted (flat : list F) (ps : list (param F)) (g : F)
| Exhausted
| InnerRaise (e : exn).

(** maxlike_base.py:486-501, inner for-else loop with [n] trials left.
    [self_ps] is [self.params] (used by [_reshape_params]). *)
Fixpoint inner (verbose : nat) (d : string -> option T) (self_ps : list (param F))
    (flat step : list F) (prev_g : F) (n : nat) (mult : F) : list event * inner_res :=
  match n with
  | 0 => ([], Exhausted)
  | S n' =>
      match v_op (f_sub E) flat (map (f_mul E mult) step) with
      | Raise e => ([], InnerRaise e)
      | Ok nf =>
        match reshape_params self_ps nf with
        | Raise e => ([], InnerRaise e)
        | Ok ps =>
          match g_at d ps with
          | Raise e => ([EvTrial mult nf], InnerRaise e)
          | Ok g =>
            if f_ge E g prev_g then ([EvTrial mult nf], Accepted nf ps g)
            else
              let '(tr, r) := inner verbose d self_ps flat step prev_g n' (f_mul E mult (f_half E)) in
              (EvTrial mult nf :: (if 1 <? verbose then [EvPrint] else []) ++ tr, r)
          end
        end
      end
  end.

(** maxlike_base.py:477-506 and 560-562: Newton's loop with [k] iterations left. *)
Fixpoint newton_loop (verbose : nat) (tol : F) (s : state) (k : nat) (flat : list F) (ps : list (param F))
  : list event * state * res bool :=
  match k with
  | 0 => ([], set_conv s false, Raise ConvergenceError)                     (* 560-562 *)
  | S k' =>
      match newton_step (s_data s) ps with
      | Raise e => ([EvStep ps], s, Raise e)
      | Ok (step, prev_g, grad, hess) =>
          let pr := if 0 <? verbose then [EvPrint] else [] in
          let '(tr, r) := inner verbose (s_data s) (s_params s) flat step prev_g 5 (f_one E) in
          let tr0 := EvStep ps :: pr ++ tr in
          match r with
          | InnerRaise e => (tr0, s, Raise e)
          | Exhausted => (tr0, set_conv s false, Raise ConvergenceError)    (* 498-501 *)
          | Accepted nf nps g =>
              match criterion prev_g g tol with
              | Raise e => (tr0, s, Raise e)
              | Ok true => (tr0, set_hess (set_params s nps) hess, Ok true) (* 504-506 *)
              | Ok false =>
                  let '(tr', s', out) := newton_loop verbose tol s k' nf nps in
                  (tr0 ++ tr', s', out)
              end
          end
      end
  end.

(** maxlike_base.py:529-551: Broyden's loop; a raised exception is caught at
    line 553 by [broyden]. *)
Fixpoint broyden_loop (verbose : nat) (tol : F) (i1 : nat) (s : state) (k : nat)
    (J : M) (g : F) (grad flat : list F) : list event * state * res bool :=
  match k with
  | 0 => ([], set_conv s false, Raise ConvergenceError)                     (* 560-562 *)
  | S k' =>
      match (let! jg := m_dot E J grad in
             let step := map (f_neg E) jg in
             let! nf := v_iadd flat (firstn i1 step) in
             let! nps := reshape_params (s_params s) nf in
             Ok (step, nf, nps)) with
      | Raise e => ([], s, Raise e)
      | Ok (step, nf, nps) =>
          match g_at (s_data s) nps with
          | Raise e => ([EvTrial (f_one E) nf], s, Raise e)
          | Ok ng =>
              if 0 <? verbose then ([EvTrial (f_one E) nf], s, Raise NameError)  (* 538-539: new_g *)
              else
              match criterion g ng tol with
              | Raise e => ([EvTrial (f_one E) nf], s, Raise e)
              | Ok true =>
                  let s1 := set_params s nps in                             (* 542 *)
                  match sp_pinvh E J with
                  | Raise e => ([EvTrial (f_one E) nf], s1, Raise e)
                  | Ok h => ([EvTrial (f_one E) nf], set_conv (set_hess s1 h) true, Ok true)
                  end
              | Ok false =>
                  match (let! y := model_call E nps in
                         let! der := model_grad E nps in
                         let! ngrad := flat_grad E (s_data s) nps y der in
                         let! dgrad := v_op (f_sub E) ngrad grad in
                         let! J' := broyden_update E J step dgrad in
                         Ok (ngrad, J')) with
                  | Raise e => ([EvTrial (f_one E) nf], s, Raise e)
                  | Ok (ngrad, J') =>
                      let '(tr, s', out) := broyden_loop verbose tol i1 s k' J' ng ngrad nf in
                      (EvTrial (f_one E) nf :: tr, s', out)
                  end
              end
          end
      end
  end.

(** maxlike_base.py:515-551: the body of the [try]. *)
Definition broyden_try (verbose : nat) (tol : F) (s : state) (k : nat) (g : F) (flat : list F)
  : list event * state * res bool :=
  let ps := s_params s in
  match (let! (y, der, hess) := model_eval E ps in
         let! grad := flat_grad E (s_data s) ps y der in
         Ok (y, der, hess, grad)) with
  | Raise e => ([], s, Raise e)
  | Ok (y, der, hess, grad) =>
      let reuse := s_conv s &&
        match s_hess s with Some h => m_nrows E h =? length grad | None => false end in
      match (if reuse then Ok s
             else let! h := flat_hess E (s_data s) ps y der hess in Ok (set_hess s h)) with
      | Raise e => ([], s, Raise e)
      | Ok s1 =>
          match s_hess s1 with
          | None => ([], s1, Raise AttributeError)        (* not reachable *)
          | Some h =>
              match (let! J := sp_pinvh E h in
                     let! i1 := cut_index (n_constraints E) (length grad) in Ok (J, i1)) with
              | Raise e => ([], s1, Raise e)
              | Ok (J, i1) => broyden_loop verbose tol i1 s1 k J g grad flat
              end
          end
      end
  end.

(** maxlike_base.py:508-555 [elif method == "broyden"]. *)
Definition broyden (verbose : nat) (tol : F) (s : state) (k : nat) (flat : list F)
  : list event * state * res bool :=
  match g_at (s_data s) (s_params s) with
  | Raise e => ([], s, Raise e)                                    (* line 510, outside the try *)
  | Ok g =>
      let pr := if 0 <? verbose then [EvPrint] else [] in
      let '(tr, s', out) := broyden_try verbose tol s k g flat in
      match out with
      | Raise e => (pr ++ tr, set_conv s' false, Raise e)          (* 553-555 *)
      | Ok b => (pr ++ tr, s', Ok b)
      end
  end.

(** maxlike_base.py:463-464: the data attributes are replaced one by one;
    [Tensor(...)] may raise.  Keyword names are assumed to be data names
    (not "params", "flat_hess_", "converged", ... which live in the same
    [__dict__]). *)
Fixpoint load_data (s : state) (kw : list (string * res T)) : state * res unit :=
  match kw with
  | [] => (s, Ok tt)
  | (k, Ok t) :: r => load_data (set_data s k t) r
  | (k, Raise e) :: _ => (s, Raise e)
  end.

(** maxlike_base.py:432-562 [fit(tol, max_steps, verbose, method, **kwargs)]. *)
Definition fit (tol : F) (max_steps : Z) (verbose : nat) (method : string) (kw : list (string * res T))
    (s : state) : list event * state * res bool :=
  match load_data s kw with
  | (s1, Raise e) => ([], s1, Raise e)
  | (s1, Ok _) =>
      match ParamModel.flat_params (s_params s1) with
      | Raise e => ([], s1, Raise e)
      | Ok flat =>
          if String.eqb (lower method) "newton" then
            newton_loop verbose tol s1 (Z.to_nat max_steps) flat (s_params s1)
          else if String.eqb (lower method) "broyden" then
            broyden verbose tol s1 (Z.to_nat max_steps) flat
          else ([], s1, Raise ValueError)                          (* 557-558 *)
      end
  end.
End Fit.

Arguments f_sub {F M Y D H T}. Arguments f_add {F M Y D H T}. Arguments f_mul {F M Y D H T}.
Arguments f_neg {F M Y D H T}. Arguments f_abs {F M Y D H T}. Arguments f_one {F M Y D H T}.
Arguments f_half {F M Y D H T}. Arguments f_div {F M Y D H T}. Arguments f_ge {F M Y D H T}.
Arguments f_lt {F M Y D H T}. Arguments model_eval {F M Y D H T}. Arguments model_call {F M Y D H T}.
Arguments model_grad {F M Y D H T}. Arguments objective {F M Y D H T}. Arguments flat_grad {F M Y D H T}.
Arguments flat_hess {F M Y D H T}. Arguments np_solve {F M Y D H T}. Arguments sp_pinvh {F M Y D H T}.
Arguments m_nrows {F M Y D H T}. Arguments m_dot {F M Y D H T}. Arguments broyden_update {F M Y D H T}.
Arguments n_constraints {F M Y D H T}.
Arguments mkState {F M T}. Arguments s_params {F M T}. Arguments s_hess {F M T}. Arguments s_conv {F M T}.
Arguments s_data {F M T}. Arguments set_params {F M T}. Arguments set_hess {F M T}. Arguments set_conv {F M T}.
Arguments set_data {F M T}. Arguments EvStep {F}. Arguments EvTrial {F}. Arguments EvPrint {F}.
Arguments v_op {F}. Arguments v_iadd {F M Y D H T}. Arguments newton_step {F M Y D H T}.
Arguments g_at {F M Y D H T}. Arguments criterion {F M Y D H T}. Arguments Accepted {F}. Arguments Exhausted {F}.
Arguments InnerRaise {F}. Arguments inner {F M Y D H T}. Arguments newton_loop {F M Y D H T}.
Arguments broyden_loop {F M Y D H T}. Arguments broyden_try {F M Y D H T}. Arguments broyden {F M Y D H T}.
Arguments load_data {F M T}. Arguments fit {F M Y D H T}.

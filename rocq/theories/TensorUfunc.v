(** NumPy functions applied to Tensors: tensor/tensor.py:426-438 and 930-963
    (__array_ufunc__), 772-776 (__pow__), 924-928 (__float__) and the dispatching
    method dot (305-319, 630-667).

    Simplifications: only the plain call of a ufunc ([method] = "__call__", no
    keyword arguments); the nine entrywise functions of lines 936-938 are one
    constructor carrying the function R -> R; the exponent of ** is a natural
    number; an exhausted recursion is [None] after [fuel] nested calls. *)
From Verif Require Import Prelude DenseModel NDArray TensorModel.
From Coq Require Import Reals.
Open Scope R_scope.

(** tensor.py:772-776 *)
Definition tpow (t : tensor) (a : nat) : res tensor :=
  Tensor (np_map (fun v => v ^ a) (tv t)) (xd t) (yd t) (dm t) (xm t) (ym t).
(** tensor.py:924-928 *)
Definition tfloat (t : tensor) : res R :=
  match shp (tv t) with [] => Ok (el (tv t) []) | _ => Raise ValueError end.

(** The functions __array_ufunc__ knows by name (lines 936-938, 947, 955-959). *)
Inductive ufunc :=
  | UPoint (f : R -> R)          (* exp, log, gamma, square, gammaln, expit, logit, tanh, arctan *)
  | UExt (f : R -> R -> R)       (* maximum, minimum *)
  | UAdd | USub | UMul | UDiv    (* add, subtract, multiply, divide *)
  | UOther.
(** the dict of lines 954-960 *)
Definition uop (u : ufunc) : option top :=
  match u with UAdd => Some ADD | USub => Some RSUB | UMul => Some MUL | UDiv => Some RDIV | _ => None end.
(** what the ufunc computes on plain arrays *)
Definition ubin (u : ufunc) : option (R -> R -> R) :=
  match u with UExt f => Some f | UAdd => Some Rplus | USub => Some Rminus | UMul => Some Rmult | UDiv => Some Rdiv | _ => None end.
Definition as_array (v : pval) : option nda :=
  match v with PNum c => Some (np_scalar c) | PArr a => Some a | _ => None end.

(** NumPy's protocol: the leftmost argument with an __array_ufunc__ method is
    asked to compute the result; without any, the arrays are combined. *)
Fixpoint overrider (l : list pval) : option pval :=
  match l with
  | [] => None
  | PT t :: _ => Some (PT t)
  | PG g :: _ => Some (PG g)
  | _ :: r => overrider r
  end.
(** tensor.py:933-963 and 426-438; [None]: the recursion never ends *)
Fixpoint np_call (fuel : nat) (u : ufunc) (ins : list pval) : option (res pval) :=
  match fuel with
  | O => None
  | S fuel =>
    match overrider ins with
    | Some (PT t) =>
        match u with
        | UPoint f =>                                                  (* lines 936-944 *)
            if Nat.ltb 0 (xd t) || Nat.ltb 0 (yd t) then Some (Raise InvalidOperation)
            else Some (rmap PT (Tensor (np_map f (tv t)) 0 0 (dm t) [] []))
        | UExt f =>                                                    (* lines 946-952 *)
            if Nat.ltb 0 (xd t) || Nat.ltb 0 (yd t) then Some (Raise InvalidOperation) else
            match ins with
            | _ :: b :: _ =>
                match np_call fuel u [PArr (tv t); b] with
                | None => None
                | Some r => Some (let! v := r in
                    match as_array v with
                    | Some a => rmap PT (Tensor a 0 0 (dm t) [] [])
                    | None => Raise ValueError
                    end)
                end
            | _ => Some (Raise IndexError)
            end
        | _ => match uop u, ins with                                   (* lines 954-963 *)
               | Some op, a :: _ => Some (tbin t a op)
               | _, _ => Some (Raise InvalidOperation)
               end
        end
    | Some (PG g) =>                                                   (* lines 426-438 *)
        match uop u, ins with
        | Some op, a :: _ => Some (gbin g a op)
        | _, _ => Some (Raise InvalidOperation)
        end
    | _ =>
        match u, ins with
        | UPoint f, [a] => match as_array a with Some a => Some (Ok (PArr (np_map f a))) | None => Some (Raise TypeError) end
        | _, [a; b] => match ubin u, as_array a, as_array b with
                       | Some f, Some a, Some b => Some (rmap PArr (np_bin f a b))
                       | _, _, _ => Some (Raise TypeError)
                       end
        | _, _ => Some (Raise TypeError)
        end
    end
  end.

(** ** Tensor.dot, lines 630-667: which product is taken *)
Definition pxd (v : pval) : nat := match v with PT t => xd t | PG g => gx g | _ => 0 end.
Definition pyd (v : pval) : nat := match v with PT t => yd t | PG g => gy g | _ => 0 end.
Definition pnn (v : pval) : nat := match v with PT t => nn t | PG g => gn g | _ => 0 end.
Definition pdm (v : pval) : nat := match v with PT t => dm t | PG g => gd g | _ => 0 end.
Definition ptranspose (v : pval) : res pval :=
  match v with PT t => rmap PT (ttranspose t) | PG g => rmap PG (gtranspose g) | _ => Raise AttributeError end.
Definition tdot (s : tensor) (o : pval) : res pval :=
  if is_zero0 (tv s) then Ok (PT s) else
  match o with
  | PNum _ | PArr _ => Raise AttributeError
  | _ =>
    let! _ := py_assert (Nat.eqb (dm s) 0 || Nat.eqb (pdm o) 0 || Nat.eqb (dm s) (pdm o)) in
    if Nat.ltb 0 (pxd o) && Nat.ltb 0 (pyd o) then
      if Nat.ltb 0 (xd s) then tdot_right_any s o
      else if Nat.ltb 0 (yd s) then
        let! s' := ttranspose s in let! o' := ptranspose o in let! r := tdot_right_any s' o' in ptranspose r
      else Raise ValueError
    else if Nat.ltb 0 (pxd o) then tdot_left_any s o
    else if Nat.ltb 0 (pyd o) then
      let! s' := ttranspose s in let! o' := ptranspose o in let! r := tdot_left_any s' o' in ptranspose r
    else if Nat.eqb (pnn o) (xd s) then tdot_left_any s o
    else if Nat.ltb 0 (pnn o) && Nat.eqb (pnn o) (yd s) then let! s' := ttranspose s in tdot_left_any s' o
    else match o with
         | PT t => if is_zero0 (tv t) then Ok (PNum 0) else Raise ValueError
         | _ => Raise AttributeError
         end
  end.
(** GenericTensor.dot, lines 305-319: gt + value starting from the empty sum *)
Definition gdot_t (g : gtensor) (o : tensor) : res pval :=
  ofold (fun acc e => on_item (fun t => let! v := tdot t (PT o) in pbin acc v ADD) e) (els g) (PG g0).
Definition gdot (g : gtensor) (o : pval) : res pval :=
  match o with
  | PT t => gdot_t g t
  | PG h => ofold (fun acc e => on_item (fun t => let! v := gdot_t g t in pbin acc v ADD) e) (els h) (PG g0)
  | _ => Raise ValueError
  end.

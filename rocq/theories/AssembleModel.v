(** Model of [MaxLike.flat_grad] and [MaxLike.flat_hess]
    (/repo/maxlike/maxlike_base.py:321-416) over any ring of scalars.

    A gradient block (a Tensor whose x axes are those of one parameter) is the
    list of its entries in C order; a Hessian block hess[i][j] is the list of
    its entries in C order of shape p_i.shape + p_j.shape.  A scalar tensor
    (such as the Tensor(0) returned for a vanishing derivative) is a one-entry
    list, and is broadcast when added to a block; adding two blocks of
    otherwise different sizes raises ValueError.  Tensor's own broadcasting and
    diagonal mappings are the subject of TensorModel.v. *)
From Verif Require Import Prelude ParamModel.

Section Assemble.
Variable A : Type.
Variables (zero : A) (add sub mul : A -> A -> A).

(** A scalar function used as constraint or regularization: value, gradient
    blocks and lower triangular Hessian blocks at given arguments. *)
Record sfunc := {
  sf_val : list (param A) -> res A;
  sf_grad : list (param A) -> res (list (list A));
  sf_hess : list (param A) -> res (list (list (list A)))
}.

(** [self.constraint]: (param_map, gamma, g), with gamma = 0 (line 141);
    [self.reg]: (param_map, h). *)
Definition constraints := list (list nat * sfunc).
Definition regs := list (list nat * sfunc).

Definition nth_res {X} (l : list X) (n : nat) : res X :=
  match nth_error l n with Some x => Ok x | None => Raise IndexError end.

Definition vec_op (op : A -> A -> A) (u v : list A) : res (list A) :=
  if length u =? length v then Ok (map (fun '(x, y) => op x y) (combine u v))
  else match v with
       | [y] => Ok (map (fun x => op x y) u)
       | _ => match u with [x] => Ok (map (op x) v) | _ => Raise ValueError end
       end.

(** [args = [params[k] for k in param_map]] *)
Definition pick {X} (params : list X) (pm : list nat) : res (list X) := rmapM (nth_res params) pm.

(** One update [l[idx] op= v]. *)
Definition upd_at (op : A -> A -> A) (l : list (list A)) (idx : nat) (v : list A) : res (list (list A)) :=
  let! old := nth_res l idx in let! nv := vec_op op old v in Ok (upd_nth idx nv l).

(** [for i, idx in enumerate(param_map): grad[idx] op= blocks[i]] *)
Fixpoint acc_grad (op : A -> A -> A) (grad : list (list A)) (pm : list nat) (blocks : list (list A))
  : res (list (list A)) :=
  match pm with
  | [] => Ok grad
  | idx :: pm' =>
      match blocks with
      | [] => Raise IndexError
      | b :: blocks' => let! g := upd_at op grad idx b in acc_grad op g pm' blocks'
      end
  end.

(** maxlike_base.py:327-332: gamma is 0. The value of the constraint is stored
    inside the loop over param_map, so an empty param_map leaves a bare 0. *)
Fixpoint flat_grad_con (params : list (param A)) (grad : list (list A)) (cs : constraints)
  : res (list (list A) * list (option A)) :=
  match cs with
  | [] => Ok (grad, [])
  | (pm, g) :: r =>
      let! args := pick params pm in
      let! gg := sf_grad g args in
      let! grad1 := acc_grad add grad pm (map (map (mul zero)) gg) in
      let! cv := (match pm with [] => Ok None | _ => rmap Some (sf_val g args) end) in
      let! (grad2, cvs) := flat_grad_con params grad1 r in
      Ok (grad2, cv :: cvs)
  end.

(** maxlike_base.py:334-338 *)
Fixpoint flat_grad_reg (params : list (param A)) (grad : list (list A)) (rs : regs) : res (list (list A)) :=
  match rs with
  | [] => Ok grad
  | (pm, h) :: r =>
      let! args := pick params pm in
      let! gh := sf_grad h args in
      let! grad1 := acc_grad sub grad pm gh in
      flat_grad_reg params grad1 r
  end.

(** [d.values[~p.mask]]: boolean index, shapes must agree. *)
Definition mask_free (p : param A) (d : list A) : res (list A) :=
  if length d =? length (p_mask p) then Ok (bool_index d (map negb (p_mask p))) else Raise IndexError.

(** maxlike_base.py:321-343 [flat_grad]; [glike] is what grad_like returned
    (one block per parameter).  Line 341: concatenating a bare 0 raises
    ValueError. *)
Definition flat_grad (params : list (param A)) (glike : list (list A)) (cs : constraints) (rs : regs)
  : res (list A) :=
  let! (grad1, cvs) := flat_grad_con params glike cs in
  let! grad2 := flat_grad_reg params grad1 rs in
  let! fr := rmapM (fun '(d, p) => mask_free p d) (combine grad2 params) in
  let! cv := rmapM (fun o => match o with Some x => Ok [x] | None => Raise ValueError end) cvs in
  np_concatenate (fr ++ cv).

(** The index pairs visited by [for i, idx in enumerate(param_map): for j in range(i + 1)]. *)
Definition tri_pairs (n : nat) : list (nat * nat) :=
  flat_map (fun i => map (pair i) (seq 0 (S i))) (seq 0 n).

(** lines 367-368 / 374-375: [hess[idx][param_map[j]] op= blocks[i][j]].  The
    rows of [hess] are lower triangular (row idx has idx+1 entries), so a
    param_map that is not ascending raises IndexError. *)
Definition upd_hess (op : A -> A -> A) (hess : list (list (list A))) (r c : nat) (v : list A)
  : res (list (list (list A))) :=
  let! row := nth_res hess r in
  let! row' := upd_at op row c v in
  Ok (upd_nth r row' hess).

Fixpoint acc_hess (op : A -> A -> A) (hess : list (list (list A))) (pm : list nat)
    (blocks : list (list (list A))) (todo : list (nat * nat)) : res (list (list (list A))) :=
  match todo with
  | [] => Ok hess
  | (i, j) :: todo' =>
      let! idx := nth_res pm i in
      let! jdx := nth_res pm j in
      let! brow := nth_res blocks i in
      let! b := nth_res brow j in
      let! h := upd_hess op hess idx jdx b in
      acc_hess op h pm blocks todo'
  end.

(** maxlike_base.py:356-368.  [np.zeros_like(p)] per parameter and constraint,
    then the gradients of the constraint.  (In the code the two updates are
    interleaved; they touch different objects.) *)
Fixpoint flat_hess_con (params : list (param A)) (hess : list (list (list A))) (cs : constraints)
  : res (list (list (list A)) * list (list (list A))) :=
  match cs with
  | [] => Ok (hess, [])
  | (pm, g) :: r =>
      let! args := pick params pm in
      let! gg := sf_grad g args in
      let! hg := sf_hess g args in
      let! hc := acc_grad add (map (fun p => repeat zero (length (p_mask p))) params) pm gg in
      let! hess1 := acc_hess add hess pm (map (map (map (mul zero))) hg) (tri_pairs (length pm)) in
      let! (hess2, hcs) := flat_hess_con params hess1 r in
      Ok (hess2, hc :: hcs)
  end.

(** maxlike_base.py:370-375 *)
Fixpoint flat_hess_reg (params : list (param A)) (hess : list (list (list A))) (rs : regs)
  : res (list (list (list A))) :=
  match rs with
  | [] => Ok hess
  | (pm, h) :: r =>
      let! args := pick params pm in
      let! hh := sf_hess h args in
      let! hess1 := acc_hess sub hess pm hh (tri_pairs (length pm)) in
      flat_hess_reg params hess1 r
  end.

(** [np.multiply.outer(~p_i.mask, ~p_j.mask)], flattened. *)
Definition outer_mask (mi mj : list bool) : list bool :=
  flat_map (fun a => map (fun b => negb a && negb b) mj) mi.

(** [l.reshape((r, c))] as a list of r rows. *)
Fixpoint chunk (r c : nat) (l : list A) : list (list A) :=
  match r with 0 => [] | S r' => firstn c l :: chunk r' c (skipn c l) end.

(** maxlike_base.py:391-395, one block. *)
Definition cut_block (pi pj : param A) (v : list A) : res (list (list A)) :=
  let m := outer_mask (p_mask pi) (p_mask pj) in
  if length v =? length m then Ok (chunk (p_count pi) (p_count pj) (bool_index v m)) else Raise IndexError.

Definition transpose (ncols : nat) (rows : list (list A)) : list (list A) :=
  map (fun c => map (fun row => nth c row zero) rows) (seq 0 ncols).

(** np.hstack of blocks with the same number [n] of rows. *)
Definition hstack (n : nat) (blocks : list (list (list A))) : list (list A) :=
  map (fun r => concat (map (fun b => nth r b []) blocks)) (seq 0 n).

(** maxlike_base.py:345-416 [flat_hess]; [hlike] is what hess_like returned:
    hlike[i][j] for j <= i. *)
Definition flat_hess (params : list (param A)) (hlike : list (list (list A))) (cs : constraints) (rs : regs)
  : res (list (list A)) :=
  let! (h1, hc) := flat_hess_con params hlike cs in
  let! h2 := flat_hess_reg params h1 rs in
  (* 391-395 *)
  let! lower := rmapM (fun '(i, pi) =>
      let! row := nth_res h2 i in
      rmapM (fun '(j, pj) => let! v := nth_res row j in cut_block pi pj v)
            (combine (seq 0 (S i)) params)) (combine (seq 0 (length params)) params) in
  (* 397-399 *)
  let blk i j := nth j (nth i lower []) [] in
  let n := length params in
  let full := map (fun i =>
      map (fun j => blk i j) (seq 0 i) ++
      map (fun j => transpose (p_count (nth i params (mkParam [] [] []))) (blk j i)) (seq i (n - i))) (seq 0 n) in
  (* 401-402 *)
  let! hcf := rmapM (fun rowc => rmapM (fun '(d, p) => mask_free p d) (combine rowc params)) hc in
  (* 407 *)
  let top := concat (map (fun '(i, brow) => hstack (p_count (nth i params (mkParam [] [] []))) brow)
                         (combine (seq 0 n) full)) in
  (* 409-414 *)
  match params with
  | [] => Raise ValueError                                            (* vstack of nothing *)
  | _ =>
    Ok match cs with
       | [] => top
       | _ => let c := map (@concat A) hcf in
              let nf := length top in
              map (fun '(row, col) => row ++ col) (combine top (transpose nf c)) ++
              map (fun row => row ++ repeat zero (length cs)) c
       end
  end.
End Assemble.
Arguments sf_val {A}. Arguments sf_grad {A}. Arguments sf_hess {A}.

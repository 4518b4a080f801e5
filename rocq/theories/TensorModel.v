(** Model of maxlike/tensor/tensor.py: Tensor and GenericTensor.

    Simplifications: dtypes (set_dtype, lines 17-29) and the abstract base class
    are left out; exact real entries; array entries of maps are [option nat]
    with None for a negative entry (-1); Enum/partial plumbing of TensorOp
    (lines 101-109) is a datatype; attribute assignment (lines 210-214) and write
    flags are in HeapModel.v. *)
From Verif Require Import Prelude DenseModel NDArray.
From Coq Require Import Reals.
Open Scope R_scope.

(** One entry per axis: Some f = "the axis is the diagonal with feature f". *)
Notation amap := (list (option nat)) (only parsing).

Fixpoint ofold {A B} (f : B -> A -> res B) (l : list A) (b : B) : res B :=
  match l with [] => Ok b | a :: r => let! b' := f b a in ofold f r b' end.

(** ---- helpers, tensor.py:32-93 ---- *)

(** lines 32-36 *)
Definition compose_mappings (map1 map2 : amap) : res amap :=
  rmapM (fun f => match f with
                  | None => Ok None
                  | Some f => match nth_error map1 f with Some g => Ok g | None => Raise IndexError end
                  end) map2.

(** lines 39-43, with the loop counter [k] *)
Fixpoint arr_swapaxes_from (k : nat) (arr : nda) (q p : nat) (mapping : amap) : res nda :=
  match mapping with
  | [] => Ok arr
  | None :: r => arr_swapaxes_from (S k) arr q p r
  | Some f :: r => let! arr := np_swapaxes arr (q + k) (p + f) in arr_swapaxes_from (S k) arr q p r
  end.
Definition arr_swapaxes := arr_swapaxes_from 0.

(** lines 46-53 *)
Fixpoint arr_take_diag_from (k : nat) (arr : nda) (q p : nat) (mapping : amap) : res nda :=
  match mapping with
  | [] => Ok arr
  | None :: r => arr_take_diag_from (S k) arr q p r
  | Some f :: r =>
      let! arr := np_diagonal arr (q + k) (p + f) in
      let! arr := np_swapaxes arr (ndim arr - 1) (p + f - 1) in
      let! arr := np_expand_dims arr k in
      arr_take_diag_from (S k) arr q p r
  end.
Definition arr_take_diag := arr_take_diag_from 0.

(** lines 56-67 *)
Fixpoint arr_expand_diag_from (k : nat) (arr : nda) (q p : nat) (mapping : amap) : res nda :=
  match mapping with
  | [] => Ok arr
  | None :: r => arr_expand_diag_from (S k) arr q p r
  | Some f :: r =>
      if Nat.ltb (p + f) (ndim arr) && Nat.ltb (q + k) (ndim arr) then
        let! arr := np_bin Rmult arr (np_eye_at (ndim arr) (q + k) (p + f) (nth (p + f) (shp arr) O)) in
        arr_expand_diag_from (S k) arr q p r
      else Raise IndexError
  end.
Definition arr_expand_diag := arr_expand_diag_from 0.

(** Python position p + f with f = -1 for None (negative positions count from
    the end) *)
Definition pypos (nd p : nat) (f : option nat) : nat :=
  match f with Some f => p + f | None => match p with O => nd - 1 | S p' => p' end end%nat.
Definition oeqb (a b : option nat) : bool :=
  match a, b with Some x, Some y => Nat.eqb x y | None, None => true | _, _ => false end.

(** lines 70-81 *)
Definition arr_expand_cross_diag (arr : nda) (p : nat) (map1 map2 : amap) : res nda :=
  ofold (fun arr ij =>
    let '(i, j) := ij in
    if oeqb i j then Ok arr else
    let a := pypos (ndim arr) p i in let b := pypos (ndim arr) p j in
    if Nat.ltb a (ndim arr) && Nat.ltb b (ndim arr) then
      let n := nth a (shp arr) O in
      let! e := np_broadcast_to (np_eye n) (ones_at (ndim arr) a b n) in
      np_bin Rmult arr e
    else Raise IndexError) (combine map1 map2) arr.

(** lines 84-98 *)
Fixpoint find_map (f : option nat) (l : nat) (map1 : amap) : option nat :=
  match map1 with [] => None | g :: r => if oeqb g f then Some l else find_map f (S l) r end.
Fixpoint arr_swapaxes_cross_from (k : nat) (arr : nda) (p : nat) (map1 map2 : amap) : res nda :=
  match map2 with
  | [] => Ok arr
  | f :: r =>
      let! arr :=
        match find_map f 0 map1 with
        | Some l =>
            if Nat.ltb k (ndim arr) && Nat.ltb (p + k) (ndim arr) && Nat.ltb l (ndim arr) then
              let n := nth k (shp arr) O in
              let! e := np_broadcast_to (np_eye n) (ones_at (ndim arr) l (p + k) n) in
              np_bin Rmult arr e
            else Raise IndexError
        | None => np_swapaxes arr (p + k) (pypos (ndim arr) p f)
        end in
      arr_swapaxes_cross_from (S k) arr p map1 r
  end.
Definition arr_swapaxes_cross := arr_swapaxes_cross_from 0.

(** ---- class Tensor ---- *)
Record tensor := mkT { tv : nda; xd : nat; yd : nat; nn : nat; dm : nat; xm : amap; ym : amap }.

(** tensor.py:441-475 (and 116-124): the number of features is what is left. *)
Definition Tensor (v : nda) (x y d : nat) (mx my : amap) : res tensor :=
  if Nat.ltb (ndim v) (x + y + d) then Raise AssertionError
  else Ok (mkT v x y (ndim v - x - y - d) d mx my).
(** [Tensor(c)] for a number *)
Definition tnum (c : R) : tensor := mkT (np_scalar c) 0 0 0 0 [] [].

(** lines 477-482 *)
Definition toarray (t : tensor) : res nda :=
  let p := (xd t + yd t)%nat in
  let! arr := arr_expand_diag (tv t) 0 p (xm t) in
  arr_expand_diag arr (xd t) p (ym t).

(** values of the argument sum_val: True, False, an int, a list *)
Inductive sumval := SVTrue | SVFalse | SVInt (k : nat) | SVList (l : list nat).
Definition mem (k : nat) (l : list nat) : bool := existsb (Nat.eqb k) l.
Definition memo (f : option nat) (l : list nat) : bool := match f with Some f => mem f l | None => false end.

(** lines 502-505 *)
Fixpoint sum_swap_x (k p : nat) (sv : list nat) (arr : nda) (m : amap) : res nda :=
  match m with
  | [] => Ok arr
  | Some f :: r => if mem f sv then let! arr := np_swapaxes arr k (p + f) in sum_swap_x (S k) p sv arr r
                   else sum_swap_x (S k) p sv arr r
  | None :: r => sum_swap_x (S k) p sv arr r
  end.
(** lines 507-516: the loop over y_map, building cross_map (x axis, y axis) *)
Fixpoint sum_swap_y (k x p : nat) (sv : list nat) (mx : amap) (cross : list (nat * nat)) (arr : nda) (m : amap)
    : res (nda * list (nat * nat)) :=
  match m with
  | [] => Ok (arr, cross)
  | Some f :: r =>
      if negb (mem f sv) then sum_swap_y (S k) x p sv mx cross arr r else
      match find_map (Some f) 0 mx with
      | Some l => sum_swap_y (S k) x p sv mx (cross ++ [(l, k)]) arr r   (* cross_map[l] = k *)
      | None => let! arr := np_swapaxes arr (x + k) (p + f) in sum_swap_y (S k) x p sv mx cross arr r
      end
  | None :: r => sum_swap_y (S k) x p sv mx cross arr r
  end.
(** lines 527-532; a repeated key of the dict keeps the last value, which the
    model only reproduces for y maps without repetition *)
Definition sum_cross (x : nat) (arr : nda) (cross : list (nat * nat)) : res nda :=
  ofold (fun arr lk =>
    let '(l, k) := lk in
    if Nat.ltb l (ndim arr) && Nat.ltb (x + k) (ndim arr) then
      let! e := np_index (map (fun j => if Nat.eqb j l || Nat.eqb j (x + k) then Sl else Nw) (seq 0 (ndim arr)))
                         (np_eye (nth l (shp arr) O)) in
      np_bin Rmult arr e
    else Raise IndexError) cross arr.

(** lines 484-534 *)
Definition tsum (t : tensor) (sum_val : sumval) (sum_dim : bool) : res tensor :=
  let p := (xd t + yd t)%nat in
  let dims := map (fun k => p + nn t + k)%nat (seq 0 (dm t)) in
  match sum_val with
  | SVFalse =>
      let! val := if sum_dim then np_sum (tv t) dims else Ok (tv t) in
      Tensor val (xd t) (yd t) 0 (xm t) (ym t)
  | _ =>
      let sv := match sum_val with SVInt k => [k] | SVList l => l | _ => seq 0 (nn t) end in
      let! val := sum_swap_x 0 p sv (tv t) (xm t) in
      let! vc := sum_swap_y 0 (xd t) p sv (xm t) [] val (ym t) in
      let '(val, cross) := vc in
      let! val := np_sum val (map (fun k => p + k)%nat sv ++ if sum_dim then dims else []) in
      let! val := sum_cross (xd t) val cross in
      Tensor val (xd t) (yd t) (if sum_dim then 0 else dm t) [] []
  end.

(** lines 536-581; [where] without negative entries *)
Definition is_zero0 (v : nda) : bool :=      (* values.ndim == 0 and values == 0 *)
  match shp v with [] => if Req_EM_T (el v []) 0 then true else false | _ => false end.
Definition tsel (k : nat) (where_ : list nat) : sel := if mem k where_ then Sl else Nw.
Definition texpand (t : tensor) (where_ : list nat) (newsize : nat) (dim : bool) : res tensor :=
  if negb (forallb (fun k => Nat.ltb k newsize) where_) then Raise AssertionError
  else if is_zero0 (tv t) then Ok (tnum 0)
  else if dim then
    if negb (Nat.eqb (length where_) (dm t)) then Raise AssertionError else
    let pn := (xd t + yd t + nn t)%nat in
    let! v := np_transpose (tv t) (seq 0 pn ++ map (fun k => pn + k)%nat (argsort where_)) in
    let! v := np_index (repeat Sl pn ++ map (fun k => tsel k where_) (seq 0 newsize)) v in
    Tensor v (xd t) (yd t) newsize (xm t) (ym t)
  else
    if negb (Nat.eqb (length where_) (nn t)) then Raise AssertionError else
    let p := (xd t + yd t)%nat in let pn := (p + nn t)%nat in
    let! mx := compose_mappings (map Some where_) (xm t) in
    let! my := compose_mappings (map Some where_) (ym t) in
    let! v := np_transpose (tv t) (seq 0 p ++ map (fun k => p + k)%nat (argsort where_) ++ seq pn (dm t)) in
    let! v := np_index (repeat Sl p ++ map (fun k => tsel k where_) (seq 0 newsize) ++ repeat Sl (dm t)) v in
    Tensor v (xd t) (yd t) (dm t) mx my.

(** lines 583-615; [where] is None, an int or a list: a list here *)
Definition tflip (t : tensor) (where_ : list nat) (dim : bool) : res tensor :=
  match where_ with
  | [] => Ok t
  | _ =>
      let p := (xd t + yd t)%nat in
      if negb dim && existsb (fun k => existsb (oeqb (Some k)) (xm t ++ ym t)) where_
      then Raise NotImplementedError
      else let p := if dim then (p + nn t)%nat else p in
           let! v := ofold (fun v k => np_flip v (p + k)) where_ (tv t) in
           Tensor v (xd t) (yd t) (dm t) (xm t) (ym t)
  end.

(** lines 617-623 *)
Definition ttranspose (t : tensor) : res tensor :=
  let! v := if Nat.ltb 0 (xd t) && Nat.ltb 0 (yd t)
            then ofold (fun v k => np_moveaxis v (xd t) k) (seq 0 (xd t)) (tv t)
            else Ok (tv t) in
  Tensor v (yd t) (xd t) (dm t) (ym t) (xm t).

(** lines 625-628 *)
Definition tdrop (t : tensor) : res tensor := Tensor (tv t) (xd t) (yd t) 0 (xm t) (ym t).
(** lines 766-770 *)
Definition tneg (t : tensor) : res tensor := Tensor (np_map Ropp (tv t)) (xd t) (yd t) (dm t) (xm t) (ym t).

(** lines 669-711, [other] a Tensor *)
Definition tdot_left_core (s o : tensor) : res tensor :=
  let dim := Nat.max (dm s) (dm o) in
  let p := (xd s + yd s)%nat in
  let l_idx := repeat Sl (xd o + nn o) ++ repeat Nw (yd s + nn s) ++ repeat Sl (dm o) ++ repeat Nw (dim - dm o) in
  let r_idx := repeat Nw (xd o) ++ Dots :: repeat Nw (dim - dm s) in
  let! val := arr_swapaxes (tv s) 0 p (xm s) in
  let! l := np_index l_idx (tv o) in
  let! r := np_index r_idx val in
  let! val := np_bin Rmult l r in
  let! val := arr_swapaxes val (xd o) (xd o + p) (xm s) in
  let! vm := match xm s with
             | [] => let! val := arr_swapaxes val 0 (xd o) (xm o) in Ok (val, [])
             | _ => let! m := compose_mappings (xm s) (xm o) in Ok (val, m)
             end in
  let '(val, mx) := vm in
  let! val := np_sum val (map (fun k => xd o + k)%nat (seq 0 (nn o))) in
  Tensor val (xd o) (yd s) dim mx (ym s).
(** lines 683-684 *)
Definition tdot_left (s o : tensor) : res tensor :=
  if negb (Nat.eqb (xd s) (nn o)) && Nat.eqb (yd s) (nn o)
  then let! s' := ttranspose s in
       (* self.transpose() has x_dim = y_dim of self = other.n: no further recursion *)
       tdot_left_core s' o
  else tdot_left_core s o.

(** A Python value: number, array, Tensor or GenericTensor (elements: Tensors,
    or plain numbers/arrays appended by lines 382-386). *)
Inductive item := IT (t : tensor) | INum (c : R) | IArr (a : nda).
Record gtensor := mkG { gx : nat; gy : nat; gn : nat; gd : nat; els : list item }.
Inductive pval := PNum (c : R) | PArr (a : nda) | PT (t : tensor) | PG (g : gtensor).

(** lines 713-764, [other] a Tensor; the int 0 is [PNum 0] *)
Definition tdot_right (s o : tensor) : res pval :=
  if is_zero0 (tv o) then Ok (PNum 0) else
  let dim := Nat.max (dm s) (dm o) in
  if negb (Nat.eqb (yd s) 0) then Raise AssertionError else
  if negb (Nat.eqb (xd s) (nn o)) then Raise AssertionError else
  let p := (xd o + yd o)%nat in
  let l_idx := repeat Sl (p + nn o) ++ repeat Nw (nn s) ++ repeat Sl (dm o) ++ repeat Nw (dim - dm o) in
  let r_idx := repeat Nw p ++ repeat Sl (xd s + nn s) ++ repeat Nw (dim - dm s) in
  let! val := arr_swapaxes (tv s) 0 (xd s) (xm s) in
  let! l := np_index l_idx (tv o) in
  let! r := np_index r_idx val in
  let! val := np_bin Rmult l r in
  let! val := arr_swapaxes val p (p + xd s) (xm s) in
  let! val := match xm s with
              | [] => let! val := arr_swapaxes val 0 p (xm o) in
                      arr_swapaxes_cross val (xd o) (xm o) (ym o)
              | _ => Ok val
              end in
  let! mx := compose_mappings (xm s) (xm o) in
  let! my := compose_mappings (xm s) (ym o) in
  let! val := np_sum val (map (fun k => p + k)%nat (seq 0 (nn o))) in
  let! t := Tensor val (xd o) (yd o) dim mx my in
  Ok (PT t).

(** ---- binary operations ---- *)
Inductive top := ADD | SUB | RSUB | MUL | DIV | RDIV.
(** lines 101-109 *)
Definition op_fun (op : top) : R -> R -> R :=
  match op with
  | ADD => Rplus | SUB => Rminus | RSUB => fun x y => y - x
  | MUL => Rmult | DIV => Rdiv | RDIV => fun x y => y / x
  end.
Definition additive (op : top) : bool := match op with ADD | SUB | RSUB => true | _ => false end.

(** lines 965-988 *)
Definition reshape_idx (t : tensor) (x y n d : nat) : list sel :=
  repeat (if Nat.ltb 0 (xd t) then Sl else Nw) x ++ repeat (if Nat.ltb 0 (yd t) then Sl else Nw) y ++
  repeat (if Nat.ltb 0 (nn t) then Sl else Nw) n ++ repeat (if Nat.ltb 0 (dm t) then Sl else Nw) d.

Definition isT (r : pval) : bool := match r with PT _ => true | _ => false end.

(** lines 804-834: [other] a number *)
Definition tbin_num (s : tensor) (c : R) (op : top) : res tensor :=
  if Req_EM_T c 0 then
    match op with
    | ADD | SUB => Ok s
    | RSUB => tneg s
    | MUL | RDIV => Ok (tnum 0)
    | DIV => Raise ZeroDivisionError
    end
  else if (if Req_EM_T c 1 then match op with MUL | DIV => true | _ => false end else false) then Ok s
  else if additive op then
    let! a := toarray s in
    Tensor (np_map (fun v => op_fun op v c) a) (xd s) (yd s) (dm s) [] []
  else Tensor (np_map (fun v => op_fun op v c) (tv s)) (xd s) (yd s) (dm s) (xm s) (ym s).

Definition dims_ok (a b : nat) : bool := Nat.eqb a 0 || Nat.eqb b 0 || Nat.eqb a b.
Fixpoint map_eqb (a b : amap) : bool :=
  match a, b with
  | [], [] => true
  | x :: a', y :: b' => oeqb x y && map_eqb a' b'
  | _, _ => false
  end.
Definition nonempty {A} (l : list A) : bool := match l with [] => false | _ => true end.

(** lines 836-923: [other] a Tensor of rank at least 1 *)
Definition tbin_tensor (s o : tensor) (op : top) : res pval :=
  match shp (tv s) with
  | [] =>                                                       (* lines 836-839 *)
      let! v := np_bin (op_fun op) (tv s) (tv o) in
      let! t := Tensor v (xd o) (yd o) (dm o) (xm o) (ym o) in Ok (PT t)
  | _ =>
      let! _ := py_assert (dims_ok (nn s) (nn o)) in
      let n := Nat.max (nn s) (nn o) in
      let! _ := py_assert (dims_ok (dm s) (dm o)) in
      let dim := Nat.max (dm s) (dm o) in
      let! _ := py_assert (dims_ok (xd s) (xd o)) in
      let x := Nat.max (xd s) (xd o) in
      let! _ := py_assert (dims_ok (yd s) (yd o)) in
      let y := Nat.max (yd s) (yd o) in
      let l_idx := reshape_idx s x y n dim in
      let r_idx := reshape_idx o x y n dim in
      if additive op then                                       (* lines 869-889 *)
        if map_eqb (xm s) (xm o) && map_eqb (ym s) (ym o) then
          let! l := np_index l_idx (tv s) in
          let! r := np_index r_idx (tv o) in
          let! v := np_bin (op_fun op) l r in
          let! t := Tensor v x y dim (xm s) (ym s) in Ok (PT t)
        else match op with
             | ADD => Ok (PG (mkG x y n dim [IT s; IT o]))
             | SUB => let! o' := tneg o in Ok (PG (mkG x y n dim [IT s; IT o']))
             | _ => let! s' := tneg s in Ok (PG (mkG x y n dim [IT s'; IT o]))
             end
      else                                                      (* lines 894-923 *)
        let p := (xd s + yd s)%nat in
        let po := (xd o + yd o)%nat in
        let! xr :=
          if nonempty (xm s) then
            let! l := arr_expand_cross_diag (tv s) p (xm s) (xm o) in
            let! r := if negb (nonempty (xm o)) && Nat.ltb 0 (xd o)
                      then arr_take_diag (tv o) 0 po (xm s) else Ok (tv o) in
            Ok (xm s, l, r)
          else
            let! l := if nonempty (xm o) && Nat.ltb 0 (xd s)
                      then arr_take_diag (tv s) 0 p (xm o) else Ok (tv s) in
            Ok (xm o, l, tv o) in
        let '(mx, l, r) := xr in
        let! yr :=
          if nonempty (ym s) then
            let! l := arr_expand_cross_diag l p (ym s) (ym o) in
            let! r := if negb (nonempty (ym o)) && Nat.ltb 0 (yd o)
                      then arr_take_diag r (xd o) po (ym s) else Ok r in
            Ok (ym s, l, r)
          else
            let! l := if Nat.ltb 0 (yd s) then arr_take_diag l (xd s) p (ym o) else Ok l in
            Ok (ym o, l, r) in
        let '(my, l, r) := yr in
        let! l := np_index l_idx l in
        let! r := np_index r_idx r in
        let! v := np_bin (op_fun op) l r in
        let! t := Tensor v x y dim mx my in Ok (PT t)
  end.

(** lines 778-803 with the three kinds of non-GenericTensor operands *)
Definition tbin_arr (s : tensor) (a : nda) (op : top) : res pval :=
  match shp a with
  | [] => let! t := tbin_num s (el a []) op in Ok (PT t)
  | _ => let! o := Tensor a 0 0 0 [] [] in tbin_tensor s o op
  end.
Definition tbin_t (s o : tensor) (op : top) : res pval :=
  match shp (tv o) with
  | [] => let! t := tbin_num s (el (tv o) []) op in Ok (PT t)
  | _ => tbin_tensor s o op
  end.
Definition tbin1 (s : tensor) (o : item) (op : top) : res pval :=
  match o with
  | INum c => let! t := tbin_num s c op in Ok (PT t)
  | IArr a => tbin_arr s a op
  | IT o => tbin_t s o op
  end.
(** [el.bin_op(other, op)] for an element of a GenericTensor *)
Definition item_bin (e o : item) (op : top) : res pval :=
  match e with IT t => tbin1 t o op | _ => Raise AttributeError end.
(** [-el] *)
Definition item_neg (e : item) : res item :=
  match e with
  | IT t => let! t' := tneg t in Ok (IT t')
  | INum c => Ok (INum (- c))
  | IArr a => Ok (IArr (np_map Ropp a))
  end.
Definition as_item (v : pval) : res item :=
  match v with PT t => Ok (IT t) | PNum c => Ok (INum c) | PArr a => Ok (IArr a) | PG _ => Raise ValueError end.

(** lines 375-398: the first element that merges with [other] absorbs
    it; if none does, [other] is appended *)
Fixpoint absorb (es : list item) (o : item) (op : top) (app : res item) : res (list item) :=
  match es with
  | [] => let! a := app in Ok [a]
  | e :: r =>
      let! v := item_bin e o op in
      match v with
      | PT t => Ok (IT t :: r)
      | _ => let! r' := absorb r o op app in Ok (e :: r')
      end
  end.

(** lines 356-406: [other] a number, an array or a Tensor *)
Definition gbin1 (g : gtensor) (o : item) (op : top) : res gtensor :=
  let '(x, y, n, d) :=
    match o with
    | IT t => (Nat.max (gx g) (xd t), Nat.max (gy g) (yd t), Nat.max (gn g) (nn t), Nat.max (gd g) (dm t))
    | _ => (gx g, gy g, gn g, gd g)
    end in
  let! es :=
    match op with
    | ADD => absorb (els g) o ADD (Ok o)
    | SUB => absorb (els g) o SUB (item_neg o)
    | RSUB => let! es := rmapM item_neg (els g) in absorb es o ADD (Ok o)
    | MUL | DIV => rmapM (fun e => let! v := item_bin e o op in as_item v) (els g)
    | RDIV => Raise InvalidOperation
    end in
  Ok (mkG x y n d es).
(** lines 408-424 *)
Definition gbin_g (g h : gtensor) (op : top) : res gtensor :=
  match op with
  | ADD | SUB => ofold (fun acc e => gbin1 acc e op) (els h) g
  | MUL => ofold (fun acc e =>
             let! ge := gbin1 g e MUL in
             (* gt + self * el: both GenericTensors *)
             ofold (fun acc e' => gbin1 acc e' ADD) (els ge) acc) (els h)
             (mkG (Nat.max (gx g) (gx h)) (Nat.max (gy g) (gy h)) (Nat.max (gn g) (gn h)) (Nat.max (gd g) (gd h)) [])
  | _ => Raise InvalidOperation
  end.
(** GenericTensor.bin_op *)
Definition gbin (g : gtensor) (o : pval) (op : top) : res pval :=
  rmap PG (match o with
           | PG h => gbin_g g h op
           | PT t => gbin1 g (IT t) op
           | PNum c => gbin1 g (INum c) op
           | PArr a => gbin1 g (IArr a) op
           end).
(** Tensor.bin_op, lines 778-923 *)
Definition tbin (s : tensor) (o : pval) (op : top) : res pval :=
  match o with
  | PG h => match op with                                        (* lines 780-787 *)
            | ADD | MUL => rmap PG (gbin1 h (IT s) op)
            | SUB => rmap PG (gbin1 h (IT s) RSUB)
            | _ => Raise InvalidOperation
            end
  | PT t => tbin_t s t op
  | PNum c => tbin1 s (INum c) op
  | PArr a => tbin1 s (IArr a) op
  end.

(** ---- GenericTensor ---- *)
Definition on_item {A} (f : tensor -> res A) (e : item) : res A :=
  match e with IT t => f t | _ => Raise AttributeError end.

(** lines 229-231: Python's [sum] starting from 0 *)
Definition gtoarray (g : gtensor) : res nda :=
  ofold (fun acc e => let! a := match e with IT t => toarray t | INum c => Ok (np_scalar c) | IArr a => Ok a end in
                      np_bin Rplus acc a) (els g) (np_scalar 0).

(** lines 233-282; [np.int] read as [int] *)
Definition gsum (g : gtensor) (sum_val : sumval) (sum_dim : bool) : res pval :=
  let falsy := match sum_val with SVFalse => true | SVInt O => true | SVList [] => true | _ => false end in
  if falsy && negb sum_dim then Ok (PG g) else
  let idx0 := match sum_val with
              | SVFalse => [] | SVTrue => seq 0 (gn g) | SVInt k => [k] | SVList l => l end in
  let full := match sum_val with
              | SVTrue => true | SVFalse => false | _ => Nat.eqb (length idx0) (gn g) end in
  let idx := idx0 ++ if sum_dim then seq (gn g) (gd g) else [] in
  let! shapes := rmapM (on_item (fun t =>
      rmapM (fun k => match nth_error (shp (tv t)) (xd t + yd t + k) with Some s => Ok s | None => Raise IndexError end) idx))
      (els g) in
  let size := prodn (fold_left (fun a s => map (fun ab => Nat.max (fst ab) (snd ab)) (combine a s)) shapes
                               (repeat 1%nat (length idx))) in
  let factor sh := INR size / INR (prodn sh) in
  if full then
    let! v := ofold (fun acc es =>
        let '(e, sh) := es in
        on_item (fun t =>
          let! u := tsum t SVTrue sum_dim in
          let! a := np_index (repeat Nw (gx g - xd t) ++ repeat Sl (xd t) ++ repeat Nw (gy g - yd t) ++
                              repeat Sl (yd t) ++ [Dots]) (tv u) in
          let! a := np_bin Rmult a (np_scalar (factor sh)) in
          np_bin Rplus acc a) e) (combine (els g) shapes) (np_scalar 0) in
    let! t := Tensor v (gx g) (gy g) (if sum_dim then 0 else gd g) [] [] in
    Ok (PT t)
  else
    let! es := rmapM (fun es => let '(e, sh) := es in
        on_item (fun t => let! u := tsum t SVFalse sum_dim in
                          let! w := tbin_num u (factor sh) MUL in Ok (IT w)) e) (combine (els g) shapes) in
    Ok (PG (mkG (gx g) (gy g) (gn g) 0 es)).

Definition gmap (f : tensor -> res tensor) (g : gtensor) : res (list item) :=
  rmapM (on_item (fun t => let! t' := f t in Ok (IT t'))) (els g).
(** lines 284-304 *)
Definition gexpand (g : gtensor) (where_ : list nat) (newsize : nat) (dim : bool) : res gtensor :=
  let! es := gmap (fun t => texpand t where_ newsize dim) g in
  Ok (mkG (gx g) (gy g) (if dim then gn g else newsize) (if dim then newsize else gd g) es).
Definition gflip (g : gtensor) (where_ : list nat) (dim : bool) : res gtensor :=
  let! es := gmap (fun t => tflip t where_ dim) g in Ok (mkG (gx g) (gy g) (gn g) (gd g) es).
Definition gtranspose (g : gtensor) : res gtensor :=
  let! es := gmap ttranspose g in Ok (mkG (gy g) (gx g) (gn g) (gd g) es).
Definition gdrop (g : gtensor) : res gtensor :=
  let! es := gmap tdrop g in Ok (mkG (gx g) (gy g) (gn g + gd g) 0 es).
(** lines 351-354 *)
Definition gneg (g : gtensor) : res gtensor :=
  let! es := rmapM item_neg (els g) in Ok (mkG (gx g) (gy g) (gn g) (gd g) es).

(** dot_left with every combination of operands: lines 669-711 and 321-334
    (GenericTensor.dot_left) *)
Definition g0 : gtensor := mkG 0 0 0 0 [].
Definition tdot_left_any (s : tensor) (o : pval) : res pval :=
  match o with
  | PT o => let! t := tdot_left s o in Ok (PT t)
  | PG h =>
      if negb (Nat.eqb (xd s) (gn h)) && Nat.eqb (yd s) (gn h)
      then let! s' := ttranspose s in
           let! es := gmap (fun e => tdot_left s' e) h in
           Ok (PG (mkG (gx h) (yd s') (nn s') (Nat.max (dm s') (gd h)) es))
      else let! es := gmap (fun e => tdot_left s e) h in
           Ok (PG (mkG (gx h) (yd s) (nn s) (Nat.max (dm s) (gd h)) es))
  | _ => Raise AttributeError
  end.
Definition gdot_left_t (g : gtensor) (o : tensor) : res gtensor :=
  ofold (fun acc e => on_item (fun t => let! v := tdot_left t o in gbin1 acc (IT v) ADD) e) (els g) g0.
Definition gdot_left (g : gtensor) (o : pval) : res pval :=
  match o with
  | PT t => rmap PG (gdot_left_t g t)
  | PG h => rmap PG (ofold (fun acc e => on_item (fun t =>
                let! v := gdot_left_t g t in gbin_g acc v ADD) e) (els h) g0)
  | _ => Raise ValueError
  end.
(** dot_right: lines 713-764 and 336-349 *)
Definition tdot_right_any (s : tensor) (o : pval) : res pval :=
  match o with
  | PT o => tdot_right s o
  | PG h =>
      if negb (Nat.eqb (yd s) 0) || negb (Nat.eqb (xd s) (gn h)) then Raise AssertionError else
      let! es := rmapM (on_item (fun e => let! v := tdot_right s e in as_item v)) (els h) in
      Ok (PG (mkG (gx h) (gy h) (nn s) (Nat.max (dm s) (gd h)) es))
  | _ => Raise AttributeError
  end.
Definition gdot_right_t (g : gtensor) (o : tensor) : res gtensor :=
  ofold (fun acc e => on_item (fun t => let! v := tdot_right t o in let! i := as_item v in gbin1 acc i ADD) e) (els g) g0.
Definition gdot_right (g : gtensor) (o : pval) : res pval :=
  match o with
  | PT t => rmap PG (gdot_right_t g t)
  | PG h => rmap PG (ofold (fun acc e => on_item (fun t =>
                let! v := gdot_right_t g t in gbin_g acc v ADD) e) (els h) g0)
  | _ => Raise ValueError
  end.

(** a + b, a - b, -a as Python dispatches them: tensor.py:778-787, 356-424 *)
Definition pbin (a b : pval) (op : top) : res pval :=
  match a with PT s => tbin s b op | PG g => gbin g b op | _ => Raise TypeError end.
Definition pneg (a : pval) : res pval :=
  match a with PT s => rmap PT (tneg s) | PG g => rmap PG (gneg g) | _ => Raise TypeError end.
(** [e.sum(True, sum_dim)] *)
Definition psum (v : pval) (sd : bool) : res pval :=
  match v with PT t => rmap PT (tsum t SVTrue sd) | PG g => gsum g SVTrue sd | _ => Raise AttributeError end.

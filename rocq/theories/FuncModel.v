(** Model of the function objects of maxlike/func: the base class and its
    operators (func_base.py), the combinators (func_op.py) and the primitive
    functions (func.py, func_proba.py, sigmoid.py).

    Simplifications common to the whole file:
    - values, gradients and Hessians are dense tensors (DenseModel.v) over R:
      the representation chosen by tensor.py (axis maps, GenericTensor) and its
      assertions are the subject of the Tensor layer;
    - floating point numbers are real numbers;
    - a function is a record of its four methods in the form they have after
      FuncMeta (func_base.py:133-157), always called with explicit indices; the
      index-less calls of vector_wrap/matrix_wrap (func_base.py:87-118) appear
      in [eval_default]. *)
From Verif Require Import Prelude DenseModel.
From Coq Require Import Reals.
Open Scope R_scope.

Definition evalT := (dt * list dt * list (list dt))%type.

(** func_base.py:160-195: the interface of Func.  [f_nullg]/[f_nullh] tell
    whether [isnull(self.grad)] / [isnull(self.hess)] (func_base.py:9-18). *)
Record sfun := mkF {
  f_call : list dt -> res dt;
  f_grad : list dt -> nat -> res dt;
  f_hess : list dt -> nat -> nat -> res dt;
  f_eval : list dt -> res evalT;
  f_nullg : bool;
  f_nullh : bool }.

(** Python list access [l[i]], i >= 0. *)
Definition rnth {A} (l : list A) (i : nat) : res A :=
  match nth_error l i with Some a => Ok a | None => Raise IndexError end.

(** Python's [sum(...)] over tensors; the initial int 0 is the zero tensor. *)
Definition dsum (l : list dt) : dt := fold_left dadd l dzero.

(** func_base.py:146-151 with the wrappers of lines 87-118 (the closure reads
    [attrs] after it has been updated with the wrapped methods, lines 154-156):
    the value, all gradients, the lower triangle of Hessians. *)
Definition eval_default (call : list dt -> res dt) (grad : list dt -> nat -> res dt)
    (hess : list dt -> nat -> nat -> res dt) (ps : list dt) : res evalT :=
  let! v := call ps in
  let! gs := rmapM (grad ps) (seq 0 (length ps)) in
  let! hs := rmapM (fun k => rmapM (hess ps k) (seq 0 (S k))) (seq 0 (length ps)) in
  Ok (v, gs, hs).

(** ---- Affine (func_base.py:198-234) ---- *)
Definition s_affine (f : sfun) (a b : R) : sfun := mkF
  (* lines 220-221 *)
  (fun ps => let! v := f_call f ps in Ok (dshift (dscal a v) b))
  (* lines 205-206, 223-224 *)
  (fun ps i => if f_nullg f then Ok dzero
               else let! g := f_grad f ps i in Ok (dscal a g))
  (* lines 208-209, 226-227 *)
  (fun ps i j => if f_nullh f then Ok dzero
                 else let! h := f_hess f ps i j in Ok (dscal a h))
  (* lines 229-234 *)
  (fun ps => let! e := f_eval f ps in
             let '(v, gs, hs) := e in
             Ok (dshift (dscal a v) b, map (dscal a) gs, map (map (dscal a)) hs))
  (f_nullg f) (f_nullh f).

(** ---- Compose (func_base.py:237-347) ---- *)
Definition enum {A} (l : list A) : list (nat * A) := combine (seq 0 (length l)) l.

(** [f_hess.dot_left(dg_i[k]).transpose().dot_left(dg_j[l]).transpose()]
    (lines 320-321, 343-344). *)
Definition quad_term (h dgi dgj : dt) : dt :=
  dtrans (ddot_left (dtrans (ddot_left h dgi)) dgj).

(** lines 289-291 *)
Definition compose_call (f : sfun) (gs : list sfun) (ps : list dt) : res dt :=
  let! gv := rmapM (fun g => f_call g ps) gs in f_call f gv.

(** lines 293-297 *)
Definition compose_grad (f : sfun) (gs : list sfun) (ps : list dt) (i : nat) : res dt :=
  let! gv := rmapM (fun g => f_call g ps) gs in
  let! ts := rmapM (fun '(k, g) =>
      let! df := f_grad f gv k in
      let! dg := f_grad g ps i in
      Ok (ddot_left df (ddrop dg))) (enum gs) in
  Ok (dsum ts).

(** lines 260-265: the Hessian when the outer function's Hessian is null *)
Definition compose_hess_null (f : sfun) (gs : list sfun) (ps : list dt) (i j : nat) : res dt :=
  let! gv := rmapM (fun g => f_call g ps) gs in
  let! ts := rmapM (fun '(k, g) =>
      let! df := f_grad f gv k in
      let! hg := f_hess g ps i j in
      Ok (ddot_right df (ddrop hg))) (enum gs) in
  Ok (dsum ts).

(** lines 299-325 *)
Definition compose_hess (f : sfun) (gs : list sfun) (ps : list dt) (i j : nat) : res dt :=
  let! gv := rmapM (fun g => f_call g ps) gs in
  let! dgi := rmapM (fun g => let! d := f_grad g ps i in Ok (ddrop d)) gs in
  let! dgj := (if Nat.eqb i j then Ok dgi
               else rmapM (fun g => let! d := f_grad g ps j in Ok (ddrop d)) gs) in
  let! ts := rmapM (fun '(k, g) =>
      let! qs := rmapM (fun '(l, _) =>
          let! h := (if Nat.ltb k l then let! h := f_hess f gv l k in Ok (dtrans h)
                     else f_hess f gv k l) in
          let! di := rnth dgi k in
          let! dj := rnth dgj l in
          Ok (quad_term h di dj)) (enum gs) in
      let! df := f_grad f gv k in
      let! hg := f_hess g ps i j in
      Ok (qs ++ [ddot_right df (ddrop hg)])) (enum gs) in
  Ok (dsum (concat ts)).

(** [g_val, g_grad, g_hess = zip(...)] (lines 269, 329): unpacking the empty
    zip raises ValueError. *)
Definition eval_all (gs : list sfun) (ps : list dt) : res (list evalT) :=
  match gs with
  | [] => Raise ValueError
  | _ => rmapM (fun g => f_eval g ps) gs
  end.

(** lines 331-336 and 272-274: one gradient entry from evaluated pieces *)
Definition compose_eval_grad (fg : list dt) (ggs : list (list dt)) (i : nat) : res dt :=
  let! ts := rmapM (fun '(k, dk) =>
      let! df := rnth fg k in
      let! d := rnth dk i in
      Ok (ddot_left df d)) (enum ggs) in
  Ok (dsum ts).

(** lines 339-345 *)
Definition compose_eval_hess (fg : list dt) (fh : list (list dt)) (ggs : list (list dt))
    (ghs : list (list (list dt))) (i j : nat) : res dt :=
  let! ts := rmapM (fun '(k, (dk, hk)) =>
      let! df := rnth fg k in
      let! hrow := rnth hk i in
      let! h := rnth hrow j in
      let! qs := rmapM (fun '(l, dl) =>
          let! fhkl := (if Nat.ltb k l
                        then let! row := rnth fh l in let! h' := rnth row k in Ok (dtrans h')
                        else let! row := rnth fh k in rnth row l) in
          let! di := rnth dk i in
          let! dj := rnth dl j in
          Ok (quad_term fhkl di dj)) (enum ggs) in
      Ok (ddot_right df (ddrop h) :: qs)) (enum (combine ggs ghs)) in
  Ok (dsum (concat ts)).

(** lines 275-277 *)
Definition compose_eval_hess_null (fg : list dt) (ghs : list (list (list dt)))
    (i j : nat) : res dt :=
  let! ts := rmapM (fun '(k, hk) =>
      let! df := rnth fg k in
      let! hrow := rnth hk i in
      let! h := rnth hrow j in
      Ok (ddot_right df (ddrop h))) (enum ghs) in
  Ok (dsum ts).

(** lines 267-278 (null Hessian) and 328-347 *)
Definition compose_eval (nullh : bool) (f : sfun) (gs : list sfun) (ps : list dt) : res evalT :=
  let! es := eval_all gs ps in
  let gv := map (fun e => fst (fst e)) es in
  let ggs := map (fun e => map ddrop (snd (fst e))) es in
  let ghs := map (fun e => snd e) es in
  let! fe := f_eval f gv in
  let '(v, fg, fh) := fe in
  let n := length ps in
  let! gr := rmapM (compose_eval_grad fg ggs) (seq 0 n) in
  let! hr := rmapM (fun i => rmapM (fun j =>
        if nullh then compose_eval_hess_null fg ghs i j
        else compose_eval_hess fg fh ggs ghs i j) (seq 0 (S i))) (seq 0 n) in
  Ok (v, gr, hr).

(** lines 243-287: which methods are installed.  When [isnull(f.grad)] both
    derivatives are null and the class [eval] is used; otherwise, when
    [isnull(f.hess)], the simplified Hessian and eval are installed. *)
Definition s_compose (f : sfun) (gs : list sfun) : sfun := mkF
  (compose_call f gs)
  (fun ps i => if f_nullg f then Ok dzero else compose_grad f gs ps i)
  (fun ps i j => if f_nullg f then Ok dzero
                 else if f_nullh f then compose_hess_null f gs ps i j
                 else compose_hess f gs ps i j)
  (fun ps => compose_eval (negb (f_nullg f) && f_nullh f) f gs ps)
  (f_nullg f) (f_nullg f).

(** ---- FuncWrap (func_op.py:22-112) ---- *)
Record wmap := mkW {
  w_pm : list nat;      (* param_map *)
  w_fm : list nat;      (* feat_map *)
  w_nf : nat;           (* n_feat *)
  w_dm : list nat;      (* dim_map *)
  w_nd : nat;           (* n_dim *)
  w_flip : list nat }.  (* feat_flip; None is [] *)

(** func_op.py:68-70.  Simplification: the assertions of Tensor.expand and the
    NotImplementedError of Tensor.flip on mapped features belong to the Tensor
    layer. *)
Definition w_expand (w : wmap) (t : dt) : dt :=
  dexpand_dim (dflip (dexpand t (w_fm w) (w_nf w)) (w_flip w)) (w_dm w) (w_nd w).

(** IndexMap.__call__, func_op.py:18-19 *)
Definition imap {A} (m : list nat) (ps : list A) : res (list A) := rmapM (rnth ps) m.

(** [try: ... except ValueError: return Tensor(0)] (func_op.py:76-81, 84-90) *)
Definition catch_value (r : res dt) : res dt :=
  match r with Raise ValueError => Ok dzero | _ => r end.

(** list.index raises ValueError when absent *)
Definition rindex (l : list nat) (k : nat) : res nat :=
  match index_of k l with Some i => Ok i | None => Raise ValueError end.

(** func_op.py:72-73 *)
Definition wrap_call (w : wmap) (f : sfun) (ps : list dt) : res dt :=
  let! qs := imap (w_pm w) ps in
  let! v := f_call f qs in Ok (w_expand w v).

(** func_op.py:75-81 *)
Definition wrap_grad (w : wmap) (f : sfun) (ps : list dt) (i : nat) : res dt :=
  catch_value (let! qs := imap (w_pm w) ps in
               let! k := rindex (w_pm w) i in
               let! g := f_grad f qs k in Ok (w_expand w g)).

(** func_op.py:83-90 *)
Definition wrap_hess (w : wmap) (f : sfun) (ps : list dt) (i j : nat) : res dt :=
  catch_value (let! qs := imap (w_pm w) ps in
               let! k := rindex (w_pm w) i in
               let! l := rindex (w_pm w) j in
               let! h := f_hess f qs k l in Ok (w_expand w h)).

(** One iteration of the loop of func_op.py:97-111; [idx_list[j]] is
    [param_map.index(j)], or None when that raised. *)
Definition wrap_eval_row (w : wmap) (gs : list dt) (hs : list (list dt)) (i : nat)
    : res (dt * list dt) :=
  match index_of i (w_pm w) with
  | None => Ok (dzero, repeat dzero (S i))
  | Some k =>
      let! g := rnth gs k in
      let! line := rmapM (fun j =>
          match index_of j (w_pm w) with
          | None => Ok dzero
          | Some l => let! row := rnth hs k in
                      let! h := rnth row l in Ok (w_expand w h)
          end) (seq 0 i) in
      let! row := rnth hs k in
      let! h := rnth row k in
      Ok (w_expand w g, line ++ [w_expand w h])
  end.

(** func_op.py:92-112, and lines 52-64 when the wrapped Hessian is null *)
Definition wrap_eval (w : wmap) (f : sfun) (ps : list dt) : res evalT :=
  let! qs := imap (w_pm w) ps in
  let! e := f_eval f qs in
  let '(v, gs, hs) := e in
  let n := length ps in
  if f_nullh f then
    let! gr := rmapM (fun i => match index_of i (w_pm w) with
                               | None => Ok dzero
                               | Some k => let! g := rnth gs k in Ok (w_expand w g)
                               end) (seq 0 n) in
    Ok (w_expand w v, gr, map (fun i => repeat dzero (S i)) (seq 0 n))
  else
    let! rows := rmapM (wrap_eval_row w gs hs) (seq 0 n) in
    Ok (w_expand w v, map fst rows, map snd rows).

(** func_op.py:24-66 *)
Definition s_wrap (w : wmap) (f : sfun) : sfun := mkF
  (wrap_call w f)
  (fun ps i => if f_nullg f then Ok dzero else wrap_grad w f ps i)
  (fun ps i j => if f_nullh f then Ok dzero else wrap_hess w f ps i j)
  (wrap_eval w f)
  (f_nullg f) (f_nullh f).

(** ---- Collapse (func_op.py:115-142) ----
    Simplification: [sum_val]/[sum_dim] are booleans and not both False. *)
Definition s_collapse (f : sfun) (sv sd : bool) : sfun := mkF
  (fun ps => let! v := f_call f ps in Ok (dsum_axes v sv sd))
  (fun ps i => let! g := f_grad f ps i in Ok (dsum_axes g sv sd))
  (fun ps i j => let! h := f_hess f ps i j in Ok (dsum_axes h sv sd))
  (fun ps => let! e := f_eval f ps in
             let '(v, gs, hs) := e in
             Ok (dsum_axes v sv sd, map (fun g => dsum_axes g sv sd) gs,
                 map (map (fun h => dsum_axes h sv sd)) hs))
  false false.

(** ---- Sum (func_op.py:145-219) ---- *)
(** the loop body of lines 211-218.  Simplification: [atom_grad[i]] and
    [atom_hess[i][j]] are read with a default; the atoms are FuncWraps, whose
    eval returns complete lists. *)
Definition sum_eval_step (n : nat) (st : evalT) (w : R) (e : evalT) : evalT :=
  let '(v, gs, hs) := st in
  let '(av, ags, ahs) := e in
  (dadd v (dscal w av),
   map (fun i => dadd (nth i gs dzero) (dscal w (nth i ags dzero))) (seq 0 n),
   map (fun i => map (fun j => dadd (nth j (nth i hs []) dzero)
                                    (dscal w (nth j (nth i ahs []) dzero)))
                     (seq 0 (S i))) (seq 0 n)).

Definition init_eval (v : dt) (n : nat) : evalT :=
  (v, repeat dzero n, map (fun i => repeat dzero (S i)) (seq 0 n)).

Definition s_sum (atoms : list (R * sfun)) (b : R) : sfun := mkF
  (* lines 197-198 *)
  (fun ps => let! ts := rmapM (fun '(w, a) => let! v := f_call a ps in Ok (dscal w v)) atoms in
             Ok (dshift (dsum ts) b))
  (* lines 200-201 *)
  (fun ps i => let! ts := rmapM (fun '(w, a) => let! v := f_grad a ps i in Ok (dscal w v)) atoms in
               Ok (dsum ts))
  (* lines 203-204 *)
  (fun ps i j => let! ts := rmapM (fun '(w, a) => let! v := f_hess a ps i j in Ok (dscal w v)) atoms in
                 Ok (dsum ts))
  (* lines 206-219 *)
  (fun ps => let! es := rmapM (fun '(w, a) => let! e := f_eval a ps in Ok (w, e)) atoms in
             Ok (fold_left (fun st '(w, e) => sum_eval_step (length ps) st w e) es
                           (init_eval dzero (length ps))))
  false false.

(** ---- Product (func_op.py:222-300) ---- *)
(** the positions kept by [if i not in except_idx] *)
Definition keep (m : nat) (except : list nat) : list nat :=
  filter (fun i => negb (existsb (Nat.eqb i) except)) (seq 0 m).

(** reduce(lambda x, y: x * y, l); TypeError on an empty sequence *)
Definition dreduce (l : list dt) : res dt :=
  match l with [] => Raise TypeError | v :: r => Ok (fold_left dmul r v) end.

(** Product._prod, lines 256-263 *)
Definition dprod (vs : list dt) (except : list nat) : dt :=
  match dreduce (map (fun i => nth i vs dzero) (keep (length vs) except)) with
  | Ok t => t
  | Raise _ => dconst 1
  end.

(** lines 265-267 *)
Definition product_call (atoms : list sfun) (ps : list dt) : res dt :=
  let! vs := rmapM (fun a => f_call a ps) atoms in dreduce vs.

(** lines 269-272 *)
Definition product_grad (atoms : list sfun) (ps : list dt) (i : nat) : res dt :=
  let! vs := rmapM (fun a => f_call a ps) atoms in
  let! gs := rmapM (fun a => f_grad a ps i) atoms in
  Ok (dsum (map (fun k => dmul (dprod vs [k]) (nth k gs dzero)) (seq 0 (length atoms)))).

(** the two additions of lines 278-282 for one k *)
Definition product_hess_k (vs gi gj hs : list dt) (m k : nat) : list dt :=
  [dsum (map (fun l => dmul (dmul (dprod vs [k; l]) (nth k gi dzero)) (dtrans (nth l gj dzero)))
             (keep m [k]));
   dmul (dprod vs [k]) (nth k hs dzero)].

(** lines 274-283 *)
Definition product_hess (atoms : list sfun) (ps : list dt) (i j : nat) : res dt :=
  let! vs := rmapM (fun a => f_call a ps) atoms in
  let! gi := rmapM (fun a => f_grad a ps i) atoms in
  let! gj := rmapM (fun a => f_grad a ps j) atoms in
  let! hs := rmapM (fun a => f_hess a ps i j) atoms in
  Ok (dsum (flat_map (product_hess_k vs gi gj hs (length atoms)) (seq 0 (length atoms)))).

(** the loop body of lines 291-299 (reads with defaults as in [sum_eval_step]) *)
Definition product_eval_step (n : nat) (st e : evalT) : evalT :=
  let '(v, gs, hs) := st in
  let '(av, ags, ahs) := e in
  (dmul v av,
   map (fun i => dadd (dmul v (nth i ags dzero)) (dmul av (nth i gs dzero))) (seq 0 n),
   map (fun i => map (fun j =>
       dadd (dadd (dadd (dmul v (nth j (nth i ahs []) dzero))
                        (dmul av (nth j (nth i hs []) dzero)))
                  (dmul (nth i gs dzero) (dtrans (nth j ags dzero))))
            (dmul (nth i ags dzero) (dtrans (nth j gs dzero)))) (seq 0 (S i))) (seq 0 n)).

(** lines 285-300 *)
Definition product_eval (atoms : list sfun) (ps : list dt) : res evalT :=
  let! es := rmapM (fun a => f_eval a ps) atoms in
  Ok (fold_left (product_eval_step (length ps)) es (init_eval (dconst 1) (length ps))).

Definition s_product (atoms : list sfun) : sfun :=
  mkF (product_call atoms) (product_grad atoms) (product_hess atoms) (product_eval atoms) false false.

(** ---- Primitive functions ---- *)
(** A primitive with the eval that FuncMeta supplies. *)
Definition prim call grad hess ng nh : sfun :=
  mkF call grad hess (eval_default call grad hess) ng nh.

Definition eqb_idx (a b : idx) : bool :=
  if list_eq_dec Nat.eq_dec a b then true else false.
Definition delta (a b : idx) : R := if eqb_idx a b then 1 else 0.

(** the array behind a parameter (np.asarray): feature then dim axes *)
Definition parr (p : dt) (i : idx) : R :=
  get p [] [] (firstn (length (ns p)) i) (skipn (length (ns p)) i).
Definition pshape (p : dt) : list nat := ns p ++ ds p.
(** params[i] *)
Definition par (ps : list dt) (i : nat) : res dt := rnth ps i.

(** Tensor(F(params[0])) for a numpy ufunc F; a Tensor argument keeps its dim
    (tensor.py:430-433, 921-929). *)
Definition ufun (F : R -> R) (p : dt) : dt :=
  DT [] [] (ns p) (ds p) (fun _ _ n d => F (at_ p [] [] n d)).

(** grad_tensor(values, params, i, True, dim) (func_base.py:21-38): the values,
    an array of the shape of the parameter, sit on the diagonal "x = feature
    (and dim) coordinate".  [keepdim]: dim=f.dim, as Exp and Log do; the other
    functions pass dim=0, which turns dim axes into features. *)
Definition diag_grad (keepdim : bool) (p : dt) (V : idx -> R) : dt :=
  let sh := pshape p in
  let k := if keepdim then length (ns p) else length sh in
  DT sh [] (firstn k sh) (skipn k sh)
     (fun x _ n d => if eqb_idx x (n ++ d) then V (n ++ d) else 0).
(** hess_tensor(values, params, 0, 0, True, True, dim) (func_base.py:41-70) *)
Definition diag_hess (keepdim : bool) (p : dt) (V : idx -> R) : dt :=
  let sh := pshape p in
  let k := if keepdim then length (ns p) else length sh in
  DT sh sh (firstn k sh) (skipn k sh)
     (fun x y n d => if eqb_idx x (n ++ d) then
                       if eqb_idx y (n ++ d) then V (n ++ d) else 0 else 0).

(** A primitive that applies a real function entrywise. *)
Definition s_entrywise (keepdim nullh : bool) (F dF ddF : R -> R) : sfun := prim
  (fun ps => let! p := par ps 0 in Ok (ufun F p))
  (fun ps i => let! p := par ps 0 in Ok (diag_grad keepdim p (fun k => dF (parr p k))))
  (fun ps i j => if nullh then Ok dzero else
                 let! p := par ps 0 in Ok (diag_hess keepdim p (fun k => ddF (parr p k))))
  false nullh.

(** func.py:55-63 *)
Definition s_X := s_entrywise false true (fun v => v) (fun _ => 1) (fun _ => 0).
(** func.py:103-119 (its own eval, lines 115-119, is the default one) *)
Definition s_Exp := s_entrywise true false exp exp exp.
(** func.py:122-133 *)
Definition s_Log := s_entrywise true false ln (fun v => 1 / v) (fun v => -1 / (v * v)).
(** sigmoid.py:17-36; expit(v) = 1 / (1 + exp(-v)) *)
Definition expit (v : R) : R := 1 / (1 + exp (- v)).
Definition s_Logistic := s_entrywise false false expit
  (fun v => expit v * (1 - expit v)) (fun v => expit v * (1 - expit v) * (1 - 2 * expit v)).
(** sigmoid.py:39-51 *)
Definition s_ArcTan := s_entrywise false false atan
  (fun v => 1 / (1 + v * v)) (fun v => - (2) * v / ((1 + v * v) ^ 2)).
(** sigmoid.py:8-14: Sigmoid("arctan") *)
Definition s_SigmoidArctan := s_affine s_ArcTan (1 / PI) (1 / 2).

(** func.py:77-85 *)
Definition s_Scalar := prim
  (fun ps => let! p := par ps 0 in Ok (ufun (fun v => v) p))
  (fun ps i => Ok (dconst 1)) (fun _ _ _ => Ok dzero) false true.

(** A numpy array as tensor value. *)
Definition darr (sh : list nat) (V : idx -> R) : dt := DT [] [] sh [] (fun _ _ n _ => V n).

(** func.py:66-74 *)
Definition s_Constant (sh : list nat) (V : idx -> R) := prim
  (fun ps => Ok (darr sh V)) (fun _ _ => Ok dzero) (fun _ _ _ => Ok dzero) true true.

(** func.py:88-100; for a parameter of rank 0, the only case in which
    grad_tensor(vector, params, i, None) has the right axes *)
Definition s_Vector (sh : list nat) (V : idx -> R) := prim
  (fun ps => let! p := par ps 0 in Ok (darr sh (fun k => parr p [] * V k)))
  (fun ps i => Ok (darr sh V)) (fun _ _ _ => Ok dzero) false true.

(** sum over all the entries of an array *)
Definition asum (sh : list nat) (V : idx -> R) : R := sumR (map V (indices sh)).

(** func.py:6-27.  A list of numbers, one per parameter ([zip] stops at the
    shorter list); the gradient has one axis of size 1 per axis of the parameter,
    both for x and for the features; the value is a plain number. *)
Definition ones (r : nat) : list nat := repeat 1%nat r.
Definition s_Linear (ws : list R) := prim
  (fun ps => Ok (dconst (sumR (map (fun '(p, w) => asum (pshape p) (fun k => parr p k * w))
                                   (combine ps ws)))))
  (fun ps i => let! w := rnth ws i in let! p := par ps i in
               let o := ones (length (pshape p)) in
               Ok (DT o [] o [] (fun _ _ _ _ => w)))
  (fun ps i j => let! p := par ps i in let! q := par ps j in
               let o := ones (length (pshape q) + length (pshape p)) in
               Ok (DT (ones (length (pshape p))) (ones (length (pshape q))) o [] (fun _ _ _ _ => 0)))
  false false.

(** func.py:30-52 *)
Definition s_Quadratic (u s : R) := prim
  (fun ps => Ok (dconst (sumR (map (fun p =>
       asum (pshape p) (fun k => ((parr p k - u) / s) * ((parr p k - u) / s))) ps))))
  (fun ps i => let! p := par ps i in
               Ok (DT (pshape p) [] [] [] (fun x _ _ _ => 2 * ((parr p x - u) / s) / s)))
  (fun ps i j => if Nat.eqb i j then
                   let! p := par ps i in
                   Ok (DT (pshape p) (pshape p) [] []
                          (fun x y _ _ => if eqb_idx x y then 2 * 1 / s / s else 0))
                 else Ok dzero)
  false false.

(** A primitive applied entrywise to params[0] and producing one dim axis of
    length [size] (dim=1): Poisson and LogNegativeBinomial.  All axes of the
    parameter become features. *)
Definition row_tensor (p : dt) (size : nat) (F : R -> nat -> R) : dt :=
  DT [] [] (pshape p) [size] (fun _ _ n d => F (parr p n) (nth 0 d O)).
Definition row_grad (p : dt) (size : nat) (F : R -> nat -> R) : dt :=
  DT (pshape p) [] (pshape p) [size]
     (fun x _ n d => if eqb_idx x n then F (parr p n) (nth 0 d O) else 0).
Definition row_hess (p : dt) (size : nat) (F : R -> nat -> R) : dt :=
  DT (pshape p) (pshape p) (pshape p) [size]
     (fun x y n d => if eqb_idx x n then if eqb_idx y n then F (parr p n) (nth 0 d O) else 0 else 0).
Definition s_rows (size : nat) (F dF ddF : R -> nat -> R) := prim
  (fun ps => let! p := par ps 0 in Ok (row_tensor p size F))
  (fun ps i => let! p := par ps 0 in Ok (row_grad p size dF))
  (fun ps i j => let! p := par ps 0 in Ok (row_hess p size ddF))
  false false.

(** np.insert(vec[..., :-1], 0, 0, -1): shift right by one, first entry 0 *)
Definition shift_row (F : R -> nat -> R) (a : R) (k : nat) : R :=
  match k with O => 0 | S k' => F a k' end.
(** func_proba.py:8-50: lambda^x / x! *)
Definition pois_row (a : R) (k : nat) : R := a ^ k / INR (fact k).
Definition s_Poisson (size : nat) :=
  s_rows size pois_row (shift_row pois_row) (shift_row (shift_row pois_row)).

(** func_proba.py:53-107, with gammaln an arbitrary function *)
Definition lnb_row (gammaln : R -> R) (r m : R) (k : nat) : R :=
  INR k * ln m + gammaln (r + INR k) - gammaln r + r * ln r - ln (INR (fact k))
  - (INR k + r) * ln (r + m).
Definition s_LogNegativeBinomial (gammaln : R -> R) (size : nat) (r : R) :=
  s_rows size (lnb_row gammaln r)
    (fun m k => INR k / m - (INR k + r) / (r + m))
    (fun m k => (INR k + r) / ((r + m) * (r + m)) - INR k / (m * m)).
(** func_proba.py:110-111 *)
Definition s_NegativeBinomial gammaln size r :=
  s_compose s_Exp [s_LogNegativeBinomial gammaln size r].

(** ---- operators of the base class (func_base.py:165-195); [Func / a] has no
    method in Python 3 (only __div__ is defined) ---- *)
Inductive fop := FAdd (b : R) | FRAdd (b : R) | FSub (b : R) | FRSub (b : R) | FNeg
               | FMul (a : R) | FRMul (a : R).

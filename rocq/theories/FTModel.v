(** The function objects of maxlike/func once more, this time computing with
    Tensor objects (TensorModel.v, TensorUfunc.v) instead of dense arrays: which
    array operations are done, which axis maps the results carry, which formal
    sums (GenericTensor) appear, and which errors are raised.  FuncModel.v has
    the same definitions on dense tensors; FTProofs*.v relate the two.

    Simplifications: those of TensorModel.v and TensorUfunc.v; the attributes
    [param_map], [feat_map], [dim_map] are lists (IndexMap, func_op.py:7-19);
    generators are evaluated before they are summed. *)
From Verif Require Import Prelude DenseModel NDArray TensorModel TensorUfunc FuncModel.
From Coq Require Import Reals.
Open Scope R_scope.

(** ** Python and numpy on the values that occur *)
Inductive pyop := OAdd | OSub | OMul | ODiv.
Definition direct (o : pyop) : top := match o with OAdd => ADD | OSub => SUB | OMul => MUL | ODiv => DIV end.
(** __radd__, __rsub__, __rmul__, __rtruediv__ (tensor.py:185-207); an array on
    the left reaches the same operations through __array_ufunc__ (lines 954-963,
    426-438) *)
Definition reflected (o : pyop) : top := match o with OAdd => ADD | OSub => RSUB | OMul => MUL | ODiv => RDIV end.
Definition rop (o : pyop) : R -> R -> R := match o with OAdd => Rplus | OSub => Rminus | OMul => Rmult | ODiv => Rdiv end.
(** a + b, a - b, a * b, a / b *)
Definition py (o : pyop) (a b : pval) : res pval :=
  match a, b with
  | PT s, _ => tbin s b (direct o)
  | PG g, _ => gbin g b (direct o)
  | _, PT t => tbin t a (reflected o)
  | _, PG h => gbin h a (reflected o)
  | PNum x, PNum y =>
      match o with
      | ODiv => if Req_EM_T y 0 then Raise ZeroDivisionError else Ok (PNum (x / y))
      | _ => Ok (PNum (rop o x y))
      end
  | PNum x, PArr y => rmap PArr (np_bin (rop o) (np_scalar x) y)
  | PArr x, PNum y => rmap PArr (np_bin (rop o) x (np_scalar y))
  | PArr x, PArr y => rmap PArr (np_bin (rop o) x y)
  end.
(** x ** 2 *)
Definition py_sq (v : pval) : res pval :=
  match v with
  | PNum c => Ok (PNum (c ^ 2))
  | PArr a => Ok (PArr (np_map (fun v => v ^ 2) a))
  | PT t => rmap PT (tpow t 2)
  | PG _ => Raise TypeError
  end.
(** F(v) for one of the unary numpy functions Tensor supports *)
Definition np1 (F : R -> R) (v : pval) : res pval :=
  match np_call 1 (UPoint F) [v] with Some r => r | None => Raise (OtherError 0) end.
(** np.asarray(v); Tensor.__array__ (tensor.py:930-931) returns the stored values *)
Definition asarray (v : pval) : res nda :=
  match v with PNum c => Ok (np_scalar c) | PArr a => Ok a | PT t => Ok (tv t) | PG _ => Raise TypeError end.
(** Tensor(v), tensor.py:441-475 *)
Definition as_tensor (v : pval) : res tensor :=
  match v with
  | PNum c => Ok (tnum c)
  | PArr a => Tensor a 0 0 0 [] []
  | PT t => if Nat.eqb (xd t) 0 && Nat.eqb (yd t) 0 then Tensor (tv t) 0 0 (dm t) [] [] else Raise AssertionError
  | PG _ => Raise TypeError
  end.
(** Python's sum of a list *)
Definition pysum (l : list pval) : res pval := ofold (py OAdd) l (PNum 0).

(** methods, on a Tensor or a GenericTensor *)
Definition pexpand (v : pval) (w : list nat) (m : nat) (dim : bool) : res pval :=
  match v with PT t => rmap PT (texpand t w m dim) | PG g => rmap PG (gexpand g w m dim) | _ => Raise AttributeError end.
Definition pflip (v : pval) (w : list nat) : res pval :=
  match v with PT t => rmap PT (tflip t w false) | PG g => rmap PG (gflip g w false) | _ => Raise AttributeError end.
Definition pdrop (v : pval) : res pval :=
  match v with PT t => rmap PT (tdrop t) | PG g => rmap PG (gdrop g) | _ => Raise AttributeError end.
Definition pdot_left (a b : pval) : res pval :=
  match a with PT s => tdot_left_any s b | PG g => gdot_left g b | _ => Raise AttributeError end.
Definition pdot_right (a b : pval) : res pval :=
  match a with PT s => tdot_right_any s b | PG g => gdot_right g b | _ => Raise AttributeError end.

(** ** func_base.py:21-70 *)
Inductive mapping := MNone | MTrue | MList (l : list nat).
Definition amap_of (m : mapping) (n : nat) : list (option nat) :=
  match m with MNone => [] | MTrue => map Some (seq 0 n) | MList l => map Some l end.
Definition msel (m : mapping) (n : nat) : list sel := repeat (match m with MNone => Sl | _ => Nw end) n.
(** np.asarray(params[i]).ndim *)
Definition pndim (ps : list pval) (i : nat) : res nat :=
  let! p := rnth ps i in let! a := asarray p in Ok (ndim a).
(** lines 21-38 *)
Definition grad_tensor (values : pval) (ps : list pval) (i : nat) (xmap : mapping) (dim : nat) : res tensor :=
  let! x := pndim ps i in
  let idx := match xmap with MNone => [Dots] | _ => repeat Nw x ++ [Dots] end in
  let! v := asarray values in
  let! a := np_index idx v in
  Tensor a x 0 dim (amap_of xmap x) [].
(** lines 41-70 *)
Definition hess_tensor (values : pval) (ps : list pval) (i j : nat) (xmap ymap : mapping) (dim : nat) : res tensor :=
  let! x := pndim ps i in
  let! y := pndim ps j in
  let! v := asarray values in
  let! a := np_index (msel xmap x ++ msel ymap y ++ [Dots]) v in
  Tensor a x y dim (amap_of xmap x) (amap_of ymap y).

(** ** function objects *)
Record tfun := mkTF {
  t_call : list pval -> res pval;
  t_grad : list pval -> nat -> res pval;
  t_hess : list pval -> nat -> nat -> res pval;
  t_nullg : bool;
  t_nullh : bool }.

Definition tzero : pval := PT (tnum 0).      (* null_func, func_base.py:9-10 *)

(** func_base.py:198-227 *)
Definition t_affine (f : tfun) (a b : R) : tfun := mkTF
  (fun ps => let! v := t_call f ps in let! w := py OMul (PNum a) v in py OAdd w (PNum b))
  (fun ps i => if t_nullg f then Ok tzero else let! g := t_grad f ps i in py OMul (PNum a) g)
  (fun ps i j => if t_nullh f then Ok tzero else let! h := t_hess f ps i j in py OMul (PNum a) h)
  (t_nullg f) (t_nullh f).

(** func_base.py:289-291 *)
Definition tcompose_call (f : tfun) (gs : list tfun) (ps : list pval) : res pval :=
  let! gv := rmapM (fun g => t_call g ps) gs in t_call f gv.
(** lines 293-297 *)
Definition tcompose_grad (f : tfun) (gs : list tfun) (ps : list pval) (i : nat) : res pval :=
  let! gv := rmapM (fun g => t_call g ps) gs in
  let! ts := rmapM (fun '(k, g) =>
      let! df := t_grad f gv k in
      let! dg := t_grad g ps i in
      let! dg := pdrop dg in
      pdot_left df dg) (enum gs) in
  pysum ts.
(** lines 260-265 *)
Definition tcompose_hess_null (f : tfun) (gs : list tfun) (ps : list pval) (i j : nat) : res pval :=
  let! gv := rmapM (fun g => t_call g ps) gs in
  let! ts := rmapM (fun '(k, g) =>
      let! df := t_grad f gv k in
      let! hg := t_hess g ps i j in
      let! hg := pdrop hg in
      pdot_right df hg) (enum gs) in
  pysum ts.
(** h.dot_left(di).transpose().dot_left(dj).transpose(), lines 320-321 *)
Definition pquad (h di dj : pval) : res pval :=
  let! a := pdot_left h di in let! a := ptranspose a in
  let! a := pdot_left a dj in ptranspose a.
(** lines 299-325; [h_val] starts as Tensor(0) *)
Definition tcompose_hess (f : tfun) (gs : list tfun) (ps : list pval) (i j : nat) : res pval :=
  let! gv := rmapM (fun g => t_call g ps) gs in
  let! dgi := rmapM (fun g => let! d := t_grad g ps i in pdrop d) gs in
  let! dgj := (if Nat.eqb i j then Ok dgi else rmapM (fun g => let! d := t_grad g ps j in pdrop d) gs) in
  ofold (fun hv '(k, g) =>
    let! hv := ofold (fun hv '(l, _) =>
        let! h := (if Nat.ltb k l then let! h := t_hess f gv l k in ptranspose h else t_hess f gv k l) in
        let! di := rnth dgi k in
        let! dj := rnth dgj l in
        let! q := pquad h di dj in
        py OAdd hv q) (enum gs) hv in
    let! df := t_grad f gv k in
    let! hg := t_hess g ps i j in
    let! hg := pdrop hg in
    let! r := pdot_right df hg in
    py OAdd hv r) (enum gs) tzero.
(** lines 243-287 *)
Definition t_compose (f : tfun) (gs : list tfun) : tfun := mkTF
  (tcompose_call f gs)
  (fun ps i => if t_nullg f then Ok tzero else tcompose_grad f gs ps i)
  (fun ps i j => if t_nullg f then Ok tzero
                 else if t_nullh f then tcompose_hess_null f gs ps i j
                 else tcompose_hess f gs ps i j)
  (t_nullg f) (t_nullg f).

(** func_op.py:68-70 *)
Definition tw_expand (w : wmap) (v : pval) : res pval :=
  let! v := pexpand v (w_fm w) (w_nf w) false in
  let! v := pflip v (w_flip w) in
  pexpand v (w_dm w) (w_nd w) true.
(** [except ValueError: return Tensor(0)] *)
Definition catch_val (r : res pval) : res pval :=
  match r with Raise ValueError => Ok tzero | _ => r end.
(** func_op.py:24-90 *)
Definition t_wrap (w : wmap) (f : tfun) : tfun := mkTF
  (fun ps => let! qs := imap (w_pm w) ps in
             let! v := t_call f qs in tw_expand w v)
  (fun ps i => if t_nullg f then Ok tzero else
     catch_val (let! qs := imap (w_pm w) ps in
                let! k := rindex (w_pm w) i in
                let! g := t_grad f qs k in tw_expand w g))
  (fun ps i j => if t_nullh f then Ok tzero else
     catch_val (let! qs := imap (w_pm w) ps in
                let! k := rindex (w_pm w) i in
                let! l := rindex (w_pm w) j in
                let! h := t_hess f qs k l in tw_expand w h))
  (t_nullg f) (t_nullh f).

(** func_op.py:145-204 *)
Definition t_sum (atoms : list (R * tfun)) (b : R) : tfun := mkTF
  (fun ps => let! ts := rmapM (fun '(w, a) => let! v := t_call a ps in py OMul (PNum w) v) atoms in
             let! s := pysum ts in py OAdd s (PNum b))
  (fun ps i => let! ts := rmapM (fun '(w, a) => let! v := t_grad a ps i in py OMul (PNum w) v) atoms in pysum ts)
  (fun ps i j => let! ts := rmapM (fun '(w, a) => let! v := t_hess a ps i j in py OMul (PNum w) v) atoms in pysum ts)
  false false.

(** ** primitive functions *)
(** np.ones_like(p) *)
Definition ones_like (p : pval) : res nda := let! a := asarray p in Ok (np_map (fun _ => 1) a).
(** func.py:55-63 *)
Definition t_X : tfun := mkTF
  (fun ps => let! p := rnth ps 0 in rmap PT (as_tensor p))
  (fun ps i => let! p := rnth ps 0 in let! o := ones_like p in rmap PT (grad_tensor (PArr o) ps i MTrue 0))
  (fun _ _ _ => Ok tzero) false true.
(** func.py:66-74 *)
Definition t_Constant (a : nda) : tfun := mkTF
  (fun _ => rmap PT (Tensor a 0 0 0 [] [])) (fun _ _ => Ok tzero) (fun _ _ _ => Ok tzero) true true.
(** func.py:77-85 *)
Definition t_Scalar : tfun := mkTF
  (fun ps => let! p := rnth ps 0 in rmap PT (as_tensor p))
  (fun _ _ => Ok (PT (tnum 1))) (fun _ _ _ => Ok tzero) false true.
(** func.py:88-100 *)
Definition t_Vector (a : nda) : tfun := mkTF
  (fun ps => let! p := rnth ps 0 in let! v := asarray p in
             let! r := np_bin Rmult v a in rmap PT (Tensor r 0 0 0 [] []))
  (fun ps i => rmap PT (grad_tensor (PArr a) ps i MNone 0))
  (fun _ _ _ => Ok tzero) false true.
(** func.py:103-119 *)
Definition exp_tensor (ps : list pval) : res tensor :=
  let! p := rnth ps 0 in let! v := np1 exp p in as_tensor v.
Definition t_Exp : tfun := mkTF
  (fun ps => rmap PT (exp_tensor ps))
  (fun ps i => let! f := exp_tensor ps in rmap PT (grad_tensor (PT f) ps i MTrue (dm f)))
  (fun ps i j => let! f := exp_tensor ps in rmap PT (hess_tensor (PT f) ps i j MTrue MTrue (dm f)))
  false false.
(** func.py:122-133 *)
Definition t_Log : tfun := mkTF
  (fun ps => let! p := rnth ps 0 in let! v := np1 ln p in rmap PT (as_tensor v))
  (fun ps i => let! p := rnth ps 0 in let! v := py ODiv (PNum 1) p in
               let! f := as_tensor v in rmap PT (grad_tensor (PT f) ps i MTrue (dm f)))
  (fun ps i j => let! p := rnth ps 0 in let! q := np1 (fun v => v * v) p in
                 let! v := py ODiv (PNum (-1)) q in
                 let! f := as_tensor v in rmap PT (hess_tensor (PT f) ps i j MTrue MTrue (dm f)))
  false false.
(** sigmoid.py:17-36: f * (1 - f) and f * (1 - f) * (1 - 2 * f) *)
Definition logis1 (f : pval) : res pval := let! a := py OSub (PNum 1) f in py OMul f a.
Definition logis2 (f : pval) : res pval :=
  let! a := logis1 f in let! b := py OMul (PNum 2) f in let! c := py OSub (PNum 1) b in py OMul a c.
Definition t_Logistic : tfun := mkTF
  (fun ps => let! p := rnth ps 0 in let! f := np1 expit p in rmap PT (as_tensor f))
  (fun ps i => let! p := rnth ps 0 in let! f := np1 expit p in
               let! v := logis1 f in rmap PT (grad_tensor v ps i MTrue 0))
  (fun ps i j => let! p := rnth ps 0 in let! f := np1 expit p in
                 let! v := logis2 f in rmap PT (hess_tensor v ps i j MTrue MTrue 0))
  false false.
(** sigmoid.py:39-51: 1 / (1 + x * x) and -2 * x / (1 + x * x) ** 2 *)
Definition onepsq (x : pval) : res pval := let! a := py OMul x x in py OAdd (PNum 1) a.
Definition t_ArcTan : tfun := mkTF
  (fun ps => let! p := rnth ps 0 in let! f := np1 atan p in rmap PT (as_tensor f))
  (fun ps i => let! x := rnth ps 0 in let! a := onepsq x in
               let! v := py ODiv (PNum 1) a in rmap PT (grad_tensor v ps i MTrue 0))
  (fun ps i j => let! x := rnth ps 0 in let! u := py OMul (PNum (-2)) x in
                 let! a := onepsq x in let! q := py_sq a in
                 let! v := py ODiv u q in rmap PT (hess_tensor v ps i j MTrue MTrue 0))
  false false.
(** func.py:30-52.  Simplification: [(z * z).sum()] as one sum over the entries. *)
Definition t_Quadratic (u s : R) : tfun := mkTF
  (fun ps => let! zs := rmapM asarray ps in
             Ok (PT (tnum (sumR (map (fun a => asum (shp a) (fun k => ((el a k - u) / s) * ((el a k - u) / s))) zs)))))
  (fun ps i => let! p := rnth ps i in let! a := asarray p in
               let! g := grad_tensor (PArr (np_map (fun v => 2 * ((v - u) / s) / s) a)) ps i MTrue 0 in
               rmap PT (tsum g SVTrue true))
  (fun ps i j => if negb (Nat.eqb i j) then Ok tzero else
               let! p := rnth ps i in let! o := ones_like p in
               let! h := hess_tensor (PArr (np_map (fun v => 2 * v / s / s) o)) ps i j MTrue MTrue 0 in
               rmap PT (tsum h SVTrue true))
  false false.
(** func_proba.py:8-107: a new last axis of length [size], entry k of which is
    F(value, k).  Simplification: the numpy expressions (powers, factorials,
    np.insert) are evaluated entry by entry, see FuncModel.v. *)
Definition row_array (a : nda) (size : nat) (F : R -> nat -> R) : nda :=
  mkA (shp a ++ [size]) (fun i => F (el a (firstn (ndim a) i)) (nth (ndim a) i O)).
Definition t_rows (size : nat) (F dF ddF : R -> nat -> R) : tfun := mkTF
  (fun ps => let! p := rnth ps 0 in let! a := asarray p in rmap PT (Tensor (row_array a size F) 0 0 1 [] []))
  (fun ps i => let! p := rnth ps 0 in let! a := asarray p in
               rmap PT (grad_tensor (PArr (row_array a size dF)) ps i MTrue 1))
  (fun ps i j => let! p := rnth ps 0 in let! a := asarray p in
               rmap PT (hess_tensor (PArr (row_array a size ddF)) ps i j MTrue MTrue 1))
  false false.
Definition t_Poisson (size : nat) := t_rows size pois_row (shift_row pois_row) (shift_row (shift_row pois_row)).
Definition t_LogNegativeBinomial (gammaln : R -> R) (size : nat) (r : R) :=
  t_rows size (lnb_row gammaln r)
    (fun m k => INR k / m - (INR k + r) / (r + m))
    (fun m k => (INR k + r) / ((r + m) * (r + m)) - INR k / (m * m)).

(** The objective of a MaxLike object and its flat gradient and Hessian, computed
    with Tensors: maxlike_base.py:94-104 (g), 321-343 (flat_grad), 345-416
    (flat_hess), and the functions used for constraints and regularizations,
    func/func.py:6-26 (Linear), 29-51 (Quadratic).  AssembleModel.v has the
    same assembly on blocks given as lists. *)
From Verif Require Import Prelude DenseModel NDArray TensorModel TensorSpec TensorUfunc FuncModel FTModel LTModel ParamModel AssembleModel.
From Coq Require Import Reals.
Import List ListNotations.
Open Scope R_scope.

(** row-major position of a multi-index *)
Fixpoint ravel (shape idx : list nat) : nat :=
  match shape, idx with
  | n :: s, i :: r => (i * prodn s + ravel s r)%nat
  | _, _ => O
  end.
(** the entries of an array, in C order *)
Definition entries (a : nda) : list R := map (el a) (indices (shp a)).
(** maxlike_base.py:40-41: a Param used as an array *)
Definition arr_of (p : param R) : pval :=
  PArr (mkA (p_shape p) (fun i => nth (ravel (p_shape p) i) (p_vals p) 0)).

(** ** Linear, Quadratic *)
(** v.sum() for a number, an array, a Tensor *)
Definition sum_all (v : pval) : res pval :=
  match v with PNum c => Ok (PNum c) | PArr a => Ok (PNum (sumR (entries a))) | _ => ssum v end.
(** func.py:6-26, for a list of numbers *)
Definition t_Linear (ws : list R) : tfun := mkTF
  (fun ps => let! ts := rmapM (fun '(p, w) => let! v := py OMul p (PArr (np_scalar w)) in sum_all v) (combine ps ws) in pysum ts)
  (fun ps i => let! w := rnth ws i in
               let! k := pndim ps i in
               rmap PT (grad_tensor (PArr (mkA (repeat 1%nat k) (fun _ => w * 1))) ps i MTrue 0))
  (fun ps i j => let! kj := pndim ps j in
                 let! ki := pndim ps i in
                 rmap PT (hess_tensor (PArr (mkA (repeat 1%nat (kj + ki)) (fun _ => 0))) ps i j MTrue MTrue 0))
  false false.
(** func.py:29-51, for numbers u, s *)
Definition quad_z (u s : R) (p : pval) : res nda := let! a := asarray p in Ok (np_map (fun v => (v - u) / s) a).
Definition t_Quadratic (u s : R) : tfun := mkTF
  (fun ps => let! zs := rmapM (quad_z u s) ps in
             rmap PT (as_tensor (PNum (fold_left (fun val z => val + sumR (entries (np_map (fun v => v * v) z))) zs 0))))
  (fun ps i => let! p := rnth ps i in
               let! z := quad_z u s p in
               let! t := grad_tensor (PArr (np_map (fun v => 2 * v / s) z)) ps i MTrue 0 in ssum (PT t))
  (fun ps i j => if Nat.eqb i j then
                   let! p := rnth ps i in
                   let! o := ones_like p in
                   let! t := hess_tensor (PArr (np_map (fun v => 2 * v / s / s) o)) ps i j MTrue MTrue 0 in ssum (PT t)
                 else Ok tzero)
  false false.

(** ** MaxLike *)
(** likelihood class, model, N, and the constraints and regularizations added
    with add_constraint and add_regularization (maxlike_base.py:127-159) *)
Record mlobj := mkML { m_est : est; m_model : tfun; m_N : pval; m_con : list (list nat * tfun); m_reg : list (list nat * tfun) }.

(** float(v) *)
Definition pyfloat (v : pval) : res R :=
  match v with PNum c => Ok c | PT t => tfloat t | PArr a => match shp a with [] => Ok (el a []) | _ => Raise TypeError end | PG _ => Raise TypeError end.
(** [params[k] for k in param_map] *)
Definition args_at (ps : list pval) (pm : list nat) : res (list pval) := rmapM (rnth ps) pm.
(** lines 100-101 *)
Fixpoint sub_regs (ps : list pval) (g : pval) (rs : list (list nat * tfun)) : res pval :=
  match rs with
  | [] => Ok g
  | (pm, h) :: r => let! args := args_at ps pm in
                    let! v := t_call h args in
                    let! g' := py OSub g v in sub_regs ps g' r
  end.
(** lines 94-104 with an argument y; self.like is called on the Param objects *)
Definition objective_at (m : mlobj) (params : list (param R)) (y : pval) : res R :=
  let ps := map arr_of params in
  let! g := e_like (m_est m) y in
  let! g := sub_regs ps g (m_reg m) in
  let! n := ssum (m_N m) in
  let! r := py ODiv g n in pyfloat r.
(** lines 94-104 without y; self.model is called on the Param objects *)
Definition objective (m : mlobj) (params : list (param R)) : res R :=
  let! y := t_call (m_model m) (map arr_of params) in objective_at m params y.

(** *** flat_grad, lines 321-343 *)
(** l[k] op= v; Tensor has no in-place operators *)
Definition upd_val (o : pyop) (l : list pval) (k : nat) (v : pval) : res (list pval) :=
  let! old := rnth l k in let! nv := py o old v in Ok (upd_nth k nv l).
Fixpoint acc_val (o : pyop) (grad : list pval) (pm : list nat) (blocks : list pval) : res (list pval) :=
  match pm with
  | [] => Ok grad
  | k :: pm' =>
      match blocks with
      | [] => Raise IndexError
      | b :: blocks' => let! g := upd_val o grad k b in acc_val o g pm' blocks'
      end
  end.
(** lines 327-332; gamma = 0 (line 141).  The value of the constraint is stored
    inside the loop over param_map; for an empty one a bare 0 stays *)
Fixpoint fg_con (ps : list pval) (grad : list pval) (cs : list (list nat * tfun)) : res (list pval * list (option pval)) :=
  match cs with
  | [] => Ok (grad, [])
  | (pm, g) :: r =>
      let! args := args_at ps pm in
      let! gg := ders g args in
      let! gg0 := rmapM (py OMul (PNum 0)) gg in
      let! grad1 := acc_val OAdd grad pm gg0 in
      let! cv := match pm with [] => Ok None | _ => rmap Some (t_call g args) end in
      let! (grad2, cvs) := fg_con ps grad1 r in Ok (grad2, cv :: cvs)
  end.
(** lines 334-338 *)
Fixpoint fg_reg (ps : list pval) (grad : list pval) (rs : list (list nat * tfun)) : res (list pval) :=
  match rs with
  | [] => Ok grad
  | (pm, h) :: r =>
      let! args := args_at ps pm in
      let! gh := ders h args in
      let! grad1 := acc_val OSub grad pm gh in fg_reg ps grad1 r
  end.
(** the attribute [values] *)
Definition values (v : pval) : res nda := match v with PT t => Ok (tv t) | _ => Raise AttributeError end.
(** a[m] for a boolean array m of shape [sh]; simplification: the shape of a must
    be [sh] (numpy also accepts masks for the leading axes only) *)
Definition np_bool (a : nda) (sh : list nat) (m : list bool) : res (list R) :=
  if shape_eqb (shp a) sh then Ok (bool_index (entries a) m) else Raise IndexError.
(** line 340: d.values[~p.mask] *)
Definition free_values (v : pval) (p : param R) : res (list R) :=
  let! a := values v in np_bool a (p_shape p) (map negb (p_mask p)).
(** the element of the one-element list [g(args)] in np.concatenate *)
Definition con_entry (o : option pval) : res (list R) :=
  match o with Some v => rmap (fun c => [c]) (pyfloat v) | None => Raise ValueError end.
(** lines 321-343: self.flat_grad(params, y, der) *)
Definition flat_grad_at (m : mlobj) (params : list (param R)) (y : pval) (der : list pval) : res (list R) :=
  let ps := map arr_of params in
  let! glike := e_grad (m_est m) y der in
  let! (grad1, cvs) := fg_con ps glike (m_con m) in
  let! grad2 := fg_reg ps grad1 (m_reg m) in
  let! fr := rmapM (fun '(d, p) => free_values d p) (combine grad2 params) in
  let! cv := rmapM con_entry cvs in
  np_concatenate (fr ++ cv).
(** for y = self.model(params), der = self.model.grad(params) (lines 547-548) *)
Definition flat_grad_t (m : mlobj) (params : list (param R)) : res (list R) :=
  let ps := map arr_of params in
  let! y := t_call (m_model m) ps in
  let! der := ders (m_model m) ps in flat_grad_at m params y der.

(** *** flat_hess, lines 345-416 *)
(** hess[r][c] op= v *)
Definition upd_hval (o : pyop) (hess : list (list pval)) (r c : nat) (v : pval) : res (list (list pval)) :=
  let! row := rnth hess r in
  let! row' := upd_val o row c v in Ok (upd_nth r row' hess).
Fixpoint acc_hval (o : pyop) (hess : list (list pval)) (pm : list nat) (blocks : list (list pval)) (todo : list (nat * nat)) : res (list (list pval)) :=
  match todo with
  | [] => Ok hess
  | (i, j) :: todo' =>
      let! idx := rnth pm i in
      let! jdx := rnth pm j in
      let! b := rnth2 blocks i j in
      let! h := upd_hval o hess idx jdx b in acc_hval o h pm blocks todo'
  end.
(** a += b for arrays *)
Definition np_iadd (a b : nda) : res nda :=
  let! c := np_bin Rplus a b in if shape_eqb (shp c) (shp a) then Ok c else Raise ValueError.
(** line 366: hess_c[k][idx] += grad_g[i].sum().values *)
Fixpoint acc_con (hc : list nda) (pm : list nat) (blocks : list pval) : res (list nda) :=
  match pm with
  | [] => Ok hc
  | k :: pm' =>
      match blocks with
      | [] => Raise IndexError
      | b :: blocks' => let! s := ssum b in
                        let! a := values s in
                        let! old := rnth hc k in
                        let! nv := np_iadd old a in acc_con (upd_nth k nv hc) pm' blocks'
      end
  end.
(** lines 356, 361-368; the two updates touch different objects *)
Fixpoint fh_con (params : list (param R)) (hess : list (list pval)) (cs : list (list nat * tfun)) : res (list (list pval) * list (list nda)) :=
  match cs with
  | [] => Ok (hess, [])
  | (pm, g) :: r =>
      let ps := map arr_of params in
      let! args := args_at ps pm in
      let! gg := ders g args in
      let! hg := hesses g args in
      let! hc := acc_con (map (fun p => mkA (p_shape p) (fun _ => 0)) params) pm gg in
      let! hg0 := rmapM (rmapM (py OMul (PNum 0))) hg in
      let! hess1 := acc_hval OAdd hess pm hg0 (tri_pairs (length pm)) in
      let! (hess2, hcs) := fh_con params hess1 r in Ok (hess2, hc :: hcs)
  end.
(** lines 370-375 *)
Fixpoint fh_reg (ps : list pval) (hess : list (list pval)) (rs : list (list nat * tfun)) : res (list (list pval)) :=
  match rs with
  | [] => Ok hess
  | (pm, h) :: r =>
      let! args := args_at ps pm in
      let! hh := hesses h args in
      let! hess1 := acc_hval OSub hess pm hh (tri_pairs (length pm)) in fh_reg ps hess1 r
  end.
(** lines 391-395, one block *)
Definition cut_value (pi pj : param R) (v : pval) : res (list (list R)) :=
  let! a := values v in
  let! l := np_bool a (p_shape pi ++ p_shape pj) (outer_mask (p_mask pi) (p_mask pj)) in
  Ok (chunk R (p_count pi) (p_count pj) l).
(** lines 345-416: self.flat_hess(params, y, der, hess) *)
Definition flat_hess_at (m : mlobj) (params : list (param R)) (y : pval) (der : list pval) (hs : list (list pval)) : res (list (list R)) :=
  let ps := map arr_of params in
  let! hlike := e_hess (m_est m) y der hs in
  let! (h1, hc) := fh_con params hlike (m_con m) in
  let! h2 := fh_reg ps h1 (m_reg m) in
  (* 391-395 *)
  let! lower := rmapM (fun '(i, pi) =>
      let! row := rnth h2 i in
      rmapM (fun '(j, pj) => let! v := rnth row j in cut_value pi pj v)
            (combine (seq 0 (S i)) params)) (combine (seq 0 (length params)) params) in
  (* 397-399 *)
  let blk i j := nth j (nth i lower []) [] in
  let n := length params in
  let full := map (fun i =>
      map (fun j => blk i j) (seq 0 i) ++
      map (fun j => transpose R 0 (p_count (nth i params (mkParam [] [] []))) (blk j i)) (seq i (n - i))) (seq 0 n) in
  (* 401-402 *)
  let! hcf := rmapM (fun rowc => rmapM (fun '(d, p) => np_bool d (p_shape p) (map negb (p_mask p))) (combine rowc params)) hc in
  (* 407 *)
  let top := concat (map (fun '(i, brow) => hstack R (p_count (nth i params (mkParam [] [] []))) brow)
                         (combine (seq 0 n) full)) in
  (* 409-414 *)
  match params with
  | [] => Raise ValueError
  | _ =>
    Ok match m_con m with
       | [] => top
       | _ => let c := map (@concat R) hcf in
              let nf := length top in
              map (fun '(row, col) => row ++ col) (combine top (transpose R 0 nf c)) ++
              map (fun row => row ++ repeat 0 (length (m_con m))) c
       end
  end.
(** for the model's value, gradients and Hessians *)
Definition flat_hess_t (m : mlobj) (params : list (param R)) : res (list (list R)) :=
  let ps := map arr_of params in
  let! y := t_call (m_model m) ps in
  let! der := ders (m_model m) ps in
  let! hs := hesses (m_model m) ps in flat_hess_at m params y der hs.

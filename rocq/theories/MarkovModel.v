(** Model of MarkovMatrix and MarkovVector (/repo/maxlike/func/matrix.py:61-295)
    over the reals, for one feature cell (the code broadcasts over the feature
    axes with [...], every cell independently).  Arrays are total functions of
    the index, modified in place: every [+=] and [-=] of the code is one
    [addto], in the same order, and [.copy()] reads the array at that moment.
    Simplifications: reals instead of floats; [skew] is a total function (in the
    code an array of the right shape). *)
From Coq Require Import Reals List.
From Verif Require Import Prelude.
Import List ListNotations.
Local Open Scope R_scope.

(** [A[c] += v] *)
Definition addto1 (A : nat -> R) (c : nat) (v : R) : nat -> R :=
  fun d => if Nat.eqb d c then A d + v else A d.
Definition addto (A : nat * nat -> R) (c : nat * nat) (v : R) : nat * nat -> R :=
  fun d => if (Nat.eqb (fst d) (fst c) && Nat.eqb (snd d) (snd c))%bool then A d + v else A d.

Section Matrix.
Variable size : nat.
Variable skew : nat -> nat -> R.

(** matrix.py:83-87: the order in which the cells are visited. *)
Definition mm_cells : list (nat * nat) :=
  flat_map (fun idx => let x := (size - idx - 1)%nat in
    map (fun jdx => let y := (size - jdx - 1)%nat in (x, y)) (seq 0 size)) (seq 0 size).

(** matrix.py:85-94: one cell of the sweep of __call__. *)
Definition mm_cell (s1 s2 : R) (M : nat * nat -> R) (c : nat * nat) : nat * nat -> R :=
  let x := fst c in let y := snd c in
  let x_ := Nat.min (x + 1) (size - 1) in
  let y_ := Nat.min (y + 1) (size - 1) in
  let f1 := skew x y in
  let f2 := skew y x in
  let m := M (x, y) in
  let M := addto M (x_, y) (s1 * f1 * m) in
  let M := addto M (x, y_) (s2 * f2 * m) in
  addto M (x, y) (- ((s1 * f1 + s2 * f2) * m)).
(** matrix.py:79-80 *)
Definition mm_init : nat * nat -> R := fun c => if (Nat.eqb (fst c) 0 && Nat.eqb (snd c) 0)%bool then 1 else 0.
(** matrix.py:82-94: one sweep, then [steps] of them. *)
Definition mm_sweep (s1 s2 : R) (M : nat * nat -> R) : nat * nat -> R := fold_left (mm_cell s1 s2) mm_cells M.
Definition mm_run (s1 s2 : R) (steps : nat) : nat * nat -> R := Nat.iter steps (mm_sweep s1 s2) mm_init.

(** matrix.py:72-78,107-112: the asserts, after dividing by the number of steps. *)
Definition rate_ok (s1 s2 : R) : res unit :=
  if Rlt_dec 0 s1 then if Rlt_dec 0 s2 then if Rlt_dec (s1 + s2) 1 then Ok tt else Raise AssertionError
  else Raise AssertionError else Raise AssertionError.
(** matrix.py:72-96 *)
Definition mm_call (steps : nat) (p1 p2 : R) : res (nat * nat -> R) :=
  let s1 := p1 / INR steps in let s2 := p2 / INR steps in
  let! _ := rate_ok s1 s2 in Ok (mm_run s1 s2 steps).

(** The six arrays of eval, matrix.py:113-118. *)
Record mm_state := MS { sM : nat * nat -> R; sD1 : nat * nat -> R; sD2 : nat * nat -> R;
                        sH11 : nat * nat -> R; sH12 : nat * nat -> R; sH22 : nat * nat -> R }.
Definition mm_init6 : mm_state := MS mm_init (fun _ => 0) (fun _ => 0) (fun _ => 0) (fun _ => 0) (fun _ => 0).
(** matrix.py:121-158: one cell of the sweep of eval. *)
Definition mm_cell6 (s1 s2 : R) (S : mm_state) (c : nat * nat) : mm_state :=
  let x := fst c in let y := snd c in
  let x_ := Nat.min (x + 1) (size - 1) in
  let y_ := Nat.min (y + 1) (size - 1) in
  let f1 := skew x y in
  let f2 := skew y x in
  let m := sM S (x, y) in
  let dm1 := sD1 S (x, y) in
  let dm2 := sD2 S (x, y) in
  let hm11 := sH11 S (x, y) in
  let hm12 := sH12 S (x, y) in
  let hm22 := sH22 S (x, y) in
  let H11 := addto (sH11 S) (x_, y) (s1 * f1 * hm11 + 2 * f1 * dm1) in
  let H11 := addto H11 (x, y_) (s2 * f2 * hm11) in
  let H11 := addto H11 (x, y) (- (2 * f1 * dm1 + (s1 * f1 + s2 * f2) * hm11)) in
  let H12 := addto (sH12 S) (x_, y) (s1 * f1 * hm12 + f1 * dm2) in
  let H12 := addto H12 (x, y_) (s2 * f2 * hm12 + f2 * dm1) in
  let H12 := addto H12 (x, y) (- (f1 * dm1 + f2 * dm2 + (s1 * f1 + s2 * f2) * hm12)) in
  let H22 := addto (sH22 S) (x_, y) (s1 * f1 * hm22) in
  let H22 := addto H22 (x, y_) (s2 * f2 * hm22 + 2 * f2 * dm2) in
  let H22 := addto H22 (x, y) (- (2 * f2 * dm2 + (s1 * f1 + s2 * f2) * hm22)) in
  let D1 := addto (sD1 S) (x_, y) (s1 * f1 * dm1 + f1 * m) in
  let D1 := addto D1 (x, y_) (s2 * f2 * dm1) in
  let D1 := addto D1 (x, y) (- (f1 * m + (s1 * f1 + s2 * f2) * dm1)) in
  let D2 := addto (sD2 S) (x_, y) (s1 * f1 * dm2) in
  let D2 := addto D2 (x, y_) (s2 * f2 * dm2 + f2 * m) in
  let D2 := addto D2 (x, y) (- (f2 * m + (s1 * f1 + s2 * f2) * dm2)) in
  let M := addto (sM S) (x_, y) (s1 * f1 * m) in
  let M := addto M (x, y_) (s2 * f2 * m) in
  let M := addto M (x, y) (- ((s1 * f1 + s2 * f2) * m)) in
  MS M D1 D2 H11 H12 H22.
Definition mm_sweep6 (s1 s2 : R) (S : mm_state) : mm_state := fold_left (mm_cell6 s1 s2) mm_cells S.
Definition mm_run6 (s1 s2 : R) (steps : nat) : mm_state := Nat.iter steps (mm_sweep6 s1 s2) mm_init6.
(** matrix.py:104-171: value, [D1; D2], [[H11]; [H12; H22]]. *)
Definition mm_eval (steps : nat) (p1 p2 : R) :
    res ((nat * nat -> R) * list (nat * nat -> R) * list (list (nat * nat -> R))) :=
  let s1 := p1 / INR steps in let s2 := p2 / INR steps in
  let! _ := rate_ok s1 s2 in
  let S := mm_run6 s1 s2 steps in
  let n := INR steps in
  Ok (sM S, [fun c => sD1 S c / n; fun c => sD2 S c / n],
      [[fun c => sH11 S c / (n * n)]; [fun c => sH12 S c / (n * n); fun c => sH22 S c / (n * n)]]).
End Matrix.

Section Vector.
Variable size : nat.                       (* assert size > 0 *)
Variable skew : nat -> R.

(** matrix.py:198-206: one cell of __call__; the state is the array and the
    carry [e]. *)
Definition mv_cell (s1 s2 : R) (Me : (nat -> R) * R) (x : nat) : (nat -> R) * R :=
  let '(M, e) := Me in
  let x_ := (x - 1)%nat in                 (* max(x - 1, 0) *)
  let f1 := skew x in
  let f2 := skew (2 * size - 2 - x)%nat in
  let m := M x in
  let M := addto1 M x_ (m * s2 * f2) in
  let M := addto1 M x (- (m * (s1 * f1 + s2 * f2))) in
  let M := addto1 M x e in
  (M, m * s1 * f1).
(** matrix.py:196-207 *)
Definition mv_sweep (s1 s2 : R) (M : nat -> R) : nat -> R :=
  let '(M, e) := fold_left (mv_cell s1 s2) (seq 0 (2 * size - 1)) (M, 0) in
  addto1 M (2 * size - 2) e.
(** matrix.py:193-194 *)
Definition mv_init : nat -> R := fun x => if Nat.eqb x (size - 1) then 1 else 0.
Definition mv_run (s1 s2 : R) (steps : nat) : nat -> R := Nat.iter steps (mv_sweep s1 s2) mv_init.
(** matrix.py:186-209 *)
Definition mv_call (steps : nat) (p1 p2 : R) : res (nat -> R) :=
  let s1 := p1 / INR steps in let s2 := p2 / INR steps in
  let! _ := rate_ok s1 s2 in Ok (mv_run s1 s2 steps).

Record mv_arrays := MV { vM : nat -> R; vD1 : nat -> R; vD2 : nat -> R; vH11 : nat -> R; vH12 : nat -> R; vH22 : nat -> R }.
Record mv_carry := MC { eM : R; e1 : R; e2 : R; e11 : R; e12 : R; e22 : R }.
Definition mv_zero_carry : mv_carry := MC 0 0 0 0 0 0.
(** matrix.py:241-276 *)
Definition mv_cell6 (s1 s2 : R) (Se : mv_arrays * mv_carry) (x : nat) : mv_arrays * mv_carry :=
  let '(St, E) := Se in
  let x_ := (x - 1)%nat in
  let f1 := skew x in
  let f2 := skew (2 * size - 2 - x)%nat in
  let m := vM St x in
  let d1 := vD1 St x in
  let d2 := vD2 St x in
  let h11 := vH11 St x in
  let h22 := vH22 St x in
  let h12 := vH12 St x in
  let M := addto1 (vM St) x_ (m * s2 * f2) in
  let M := addto1 M x (- (m * (s1 * f1 + s2 * f2))) in
  let M := addto1 M x (eM E) in
  let e := m * s1 * f1 in
  let D1 := addto1 (vD1 St) x_ (d1 * s2 * f2) in
  let D1 := addto1 D1 x (- (d1 * (s1 * f1 + s2 * f2) + m * f1)) in
  let D1 := addto1 D1 x (e1 E) in
  let e_1 := (m + d1 * s1) * f1 in
  let D2 := addto1 (vD2 St) x_ ((m + d2 * s2) * f2) in
  let D2 := addto1 D2 x (- (d2 * (s1 * f1 + s2 * f2) + m * f2)) in
  let D2 := addto1 D2 x (e2 E) in
  let e_2 := d2 * s1 * f1 in
  let H11 := addto1 (vH11 St) x_ (h11 * s2 * f2) in
  let H11 := addto1 H11 x (- (h11 * (s1 * f1 + s2 * f2) + 2 * d1 * f1)) in
  let H11 := addto1 H11 x (e11 E) in
  let e_11 := (2 * d1 + h11 * s1) * f1 in
  let H12 := addto1 (vH12 St) x_ (h12 * s2 * f2 + d1 * f2) in
  let H12 := addto1 H12 x (- (h12 * (s1 * f1 + s2 * f2) + d2 * f1 + d1 * f2)) in
  let H12 := addto1 H12 x (e12 E) in
  let e_12 := (d2 + h12 * s1) * f1 in
  let H22 := addto1 (vH22 St) x_ ((2 * d2 + h22 * s2) * f2) in
  let H22 := addto1 H22 x (- (h22 * (s1 * f1 + s2 * f2) + 2 * d2 * f2)) in
  let H22 := addto1 H22 x (e22 E) in
  let e_22 := h22 * s1 * f1 in
  (MV M D1 D2 H11 H12 H22, MC e e_1 e_2 e_11 e_12 e_22).
(** matrix.py:233-283 *)
Definition mv_sweep6 (s1 s2 : R) (S : mv_arrays) : mv_arrays :=
  let '(St, E) := fold_left (mv_cell6 s1 s2) (seq 0 (2 * size - 1)) (S, mv_zero_carry) in
  let l := (2 * size - 2)%nat in
  MV (addto1 (vM St) l (eM E)) (addto1 (vD1 St) l (e1 E)) (addto1 (vD2 St) l (e2 E))
     (addto1 (vH11 St) l (e11 E)) (addto1 (vH12 St) l (e12 E)) (addto1 (vH22 St) l (e22 E)).
Definition mv_init6 : mv_arrays := MV mv_init (fun _ => 0) (fun _ => 0) (fun _ => 0) (fun _ => 0) (fun _ => 0).
Definition mv_run6 (s1 s2 : R) (steps : nat) : mv_arrays := Nat.iter steps (mv_sweep6 s1 s2) mv_init6.
(** matrix.py:217-295 *)
Definition mv_eval (steps : nat) (p1 p2 : R) :
    res ((nat -> R) * list (nat -> R) * list (list (nat -> R))) :=
  let s1 := p1 / INR steps in let s2 := p2 / INR steps in
  let! _ := rate_ok s1 s2 in
  let S := mv_run6 s1 s2 steps in
  let n := INR steps in
  Ok (vM S, [fun c => vD1 S c / n; fun c => vD2 S c / n],
      [[fun c => vH11 S c / (n * n)]; [fun c => vH12 S c / (n * n); fun c => vH22 S c / (n * n)]]).
End Vector.

(** CollapseMatrix, matrix.py:7-58.  One feature cell: a matrix [arr] of [nx] by
    [ny].  A condition (a, b, c, s) stands for sgn(a x + b y + c) == s. *)
Definition condition : Type := Z * Z * Z * Z.
(** matrix.py:11-21: the attribute is only set when no conditions are given. *)
Definition collapse_init (conditions : option (list condition)) : option (list condition) :=
  match conditions with
  | None => Some [(1, -1, 0, 1); (1, -1, 0, 0); (1, -1, 0, -1)]%Z
  | Some _ => None
  end.
(** matrix.py:33-35: [np.sign(x * rng_x + y * rng_y + c) == s] *)
Definition filt (cd : condition) (i j : nat) : bool :=
  let '(x, y, c, s) := cd in Z.eqb (Z.sgn (x * Z.of_nat i + y * Z.of_nat j + c)) s.
Definition grid (nx ny : nat) : list (nat * nat) := list_prod (seq 0 nx) (seq 0 ny).
Definition gsum (nx ny : nat) (f : nat * nat -> R) : R := fold_right Rplus 0 (map f (grid nx ny)).
Definition b2R (b : bool) : R := if b then 1 else 0.
(** matrix.py:23-38; [self.conditions] on an instance without it raises. *)
Definition collapse_call (self : option (list condition)) (nx ny : nat) (arr : nat * nat -> R) : res (list R) :=
  match self with
  | None => Raise AttributeError
  | Some cds => Ok (map (fun cd => gsum nx ny (fun c => arr c * b2R (filt cd (fst c) (snd c)))) cds)
  end.
(** matrix.py:40-58: entry at condition [u], cell [c] of the matrix. *)
Definition collapse_grad (self : option (list condition)) : res (list (nat * nat -> R)) :=
  match self with
  | None => Raise AttributeError
  | Some cds => Ok (map (fun cd c => 1 * b2R (filt cd (fst c) (snd c))) cds)
  end.
(** matrix.py:50-53: the shape of the array after the two swapaxes, for a
    parameter of shape [sh] (features, then nx, ny) and [k] conditions. *)
Definition swapaxes (i j : nat) (l : list nat) : list nat :=
  map (fun a => nth (if Nat.eqb a i then j else if Nat.eqb a j then i else a) l 0%nat) (seq 0 (length l)).
Definition collapse_grad_shape (sh : list nat) (k : nat) : list nat :=
  let x_dim := length sh in
  swapaxes 1 (x_dim - 1) (swapaxes 0 (x_dim - 2) (sh ++ [k])).

(** Array objects, memory sharing and write flags: what Tensor.__init__
    (tensor/tensor.py:444-475), Param.__init__ (maxlike_base.py:19-30) and the
    attribute guards (tensor.py:210-214, maxlike_base.py:47-51) do to memory.

    An array object is a list of addresses with a WRITEABLE flag, a dtype tag and
    the object it is a view of.  numpy rules used: a view takes the flag of the
    array it is taken from; [np.asarray(a, dtype)] is [a] itself when the dtype is
    the same and a fresh copy otherwise; WRITEABLE can be set back to True when the
    array owns its memory or its base is writeable.  Garbage collection, strides
    and array shapes are left out; [cast] is the dtype conversion. *)
From Verif Require Import Prelude.

Section Heap.
Context {V : Type} (cast : nat -> V -> V).

Record aobj := mkO { adr : list nat; wr : bool; dt : nat; base : option nat }.
(** tensors: the object held in [values]; params: the objects held in [values], [mask] *)
Record heap := mkH { mem : nat -> V; nxt : nat; objs : list aobj; tens : list nat; pars : list (nat * nat) }.

Inductive op :=
| Alloc (vals : list V) (d : nat)          (* np.array(...), a.copy(), results of arithmetic *)
| View (o : nat) (sel : list nat)          (* a[...], a.T, a.reshape(...) *)
| Write (o k : nat) (v : V)                (* a[...] = v *)
| Lock (o : nat) | Unlock (o : nat)        (* a.flags.writeable = False / True *)
| MkTensor (o d : nat)                     (* Tensor(a, dtype=d) *)
| MkParam (o m : nat)                      (* Param(a, mask=b) *)
| SetAttr (t : nat) | DelAttr (t : nat).   (* t.name = v, del t.name *)

Definition put (m : nat -> V) (a : nat) (v : V) : nat -> V := fun b => if Nat.eqb b a then v else m b.
Definition store (m : nat -> V) (from : nat) (vals : list V) : nat -> V :=
  fun b => if Nat.leb from b then nth (b - from) vals (m b) else m b.
Definition setwr (s : heap) (o : nat) (a : aobj) (w : bool) : heap :=
  mkH (mem s) (nxt s) (upd_nth o (mkO (adr a) w (dt a) (base a)) (objs s)) (tens s) (pars s).
Definition alloc (s : heap) (vals : list V) (d : nat) : heap :=
  mkH (store (mem s) (nxt s) vals) (nxt s + length vals) (objs s ++ [mkO (seq (nxt s) (length vals)) true d None]) (tens s) (pars s).

(** one operation: the next state and what is raised, if anything *)
Definition step (s : heap) (x : op) : heap * res unit :=
  match x with
  | Alloc vals d => (alloc s vals d, Ok tt)
  | View o sel =>
      match nth_error (objs s) o with
      | Some a => if forallb (fun k => Nat.ltb k (length (adr a))) sel
                  then (mkH (mem s) (nxt s) (objs s ++ [mkO (map (fun k => nth k (adr a) 0) sel) (wr a) (dt a) (Some o)]) (tens s) (pars s), Ok tt)
                  else (s, Raise IndexError)
      | None => (s, Raise NameError)
      end
  | Write o k v =>
      match nth_error (objs s) o with
      | Some a => if wr a then
                    match nth_error (adr a) k with
                    | Some p => (mkH (put (mem s) p v) (nxt s) (objs s) (tens s) (pars s), Ok tt)
                    | None => (s, Raise IndexError)
                    end
                  else (s, Raise ValueError)     (* assignment destination is read-only *)
      | None => (s, Raise NameError)
      end
  | Lock o => match nth_error (objs s) o with Some a => (setwr s o a false, Ok tt) | None => (s, Raise NameError) end
  | Unlock o =>
      match nth_error (objs s) o with
      | Some a => if match base a with None => true | Some b => match nth_error (objs s) b with Some c => wr c | None => false end end
                  then (setwr s o a true, Ok tt) else (s, Raise ValueError)
      | None => (s, Raise NameError)
      end
  | MkTensor o d =>                               (* tensor.py:455-456 *)
      match nth_error (objs s) o with
      | Some a =>
          if Nat.eqb (dt a) d
          then let s' := setwr s o a false in (mkH (mem s') (nxt s') (objs s') (tens s ++ [o]) (pars s), Ok tt)
          else let s' := alloc s (map (fun p => cast d (mem s p)) (adr a)) d in
               let n := length (objs s) in
               let s' := setwr s' n (mkO (seq (nxt s) (length (adr a))) true d None) false in
               (mkH (mem s') (nxt s') (objs s') (tens s ++ [n]) (pars s), Ok tt)
      | None => (s, Raise NameError)
      end
  | MkParam o m =>                                (* maxlike_base.py:26-30 *)
      match nth_error (objs s) o, nth_error (objs s) m with
      | Some a, Some b =>
          if Nat.eqb (length (adr a)) (length (adr b))
          then let s' := setwr s o a false in (mkH (mem s') (nxt s') (objs s') (tens s) (pars s ++ [(o, m)]), Ok tt)
          else (s, Raise AssertionError)
      | _, _ => (s, Raise NameError)
      end
  | SetAttr _ | DelAttr _ => (s, Raise NotImplementedError)
  end.
Definition run (s : heap) (h : list op) : heap := fold_left (fun s x => fst (step s x)) h s.
Definition outcome (s : heap) (x : op) : res unit := snd (step s x).

(** what an array object shows *)
Definition read (s : heap) (o : nat) : list V :=
  match nth_error (objs s) o with Some a => map (mem s) (adr a) | None => [] end.
Definition empty (m : nat -> V) : heap := mkH m 0 [] [] [].
(** heaps that some history of operations produces *)
Definition reachable (s : heap) : Prop := exists m h, s = run (empty m) h.
End Heap.

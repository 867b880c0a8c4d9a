(* Which values have a faithful encoding: scalars that fit their C++ type, vectors
   with fewer than 2^32 elements. *)
From Verif Require Import Base SerializeModel.
Local Open Scope Z_scope.

Definition fits_scalar (w : nat) (signed : bool) (z : Z) : Prop :=
  if signed then - 2 ^ (8 * Z.of_nat w - 1) <= z < 2 ^ (8 * Z.of_nat w - 1)
  else 0 <= z < 2 ^ (8 * Z.of_nat w).

Definition fits_vec {A} (P : A -> Prop) (l : list A) : Prop :=
  Z.of_nat (length l) < 2 ^ 32 /\ Forall P l.

Definition fits_ints := fits_vec (fits_scalar 4 true).

Fixpoint fits (t : ty) : denote t -> Prop :=
  match t as t return denote t -> Prop with
  | TScalar w s => fun z => (0 < w)%nat /\ fits_scalar w s z
  | TVec t => fits_vec (fits t)
  | TPoint2 t => fun p => fits t (p2x p) /\ fits t (p2y p) /\ fits_scalar 4 false (p2i p)
  | TPoint3 t => fun p => fits t (p3x p) /\ fits t (p3y p) /\ fits t (p3z p)
                          /\ fits_scalar 4 false (p3i p)
  | TPLC => fun p => fits_vec fits_ints (facets p) /\ fits_vec (fits_vec fits_ints) (holes p)
  | TReducedPLC t => fun p => fits_vec fits_ints (rfacets p)
                              /\ fits_vec (fits_vec fits_ints) (rholes p)
                              /\ fits_vec (fits t) (rpoints p)
  end.

(* Buffers holding several values one after the other. *)
Definition serialize_all (t : ty) (vs : list (denote t)) : list Z := flat_map (serialize t) vs.

Fixpoint deserialize_all (t : ty) (dbg : bool) (n : nat) (buf : list Z)
  : res (list (denote t) * list Z) :=
  match n with
  | O => Ok ([], buf)
  | S n => do (v, b) <- deserialize t dbg (fresh t) buf;
           do (vs, b') <- deserialize_all t dbg n b;
           Ok (v :: vs, b')
  end.

Definition short_read {A} (dbg : bool) : res A := if dbg then Abort else UB.

(* Model of src/polytope_serialize.hh and of the Serializer specialisations in
   src/Point.hh.  Bytes are integers 0..255; the machine is little endian (an
   assumption: the C++ copies the object representation). *)
From Verif Require Import Base.
Local Open Scope Z_scope.

(* PLC (src/PLC.hh lines 22, 29) and ReducedPLC (src/ReducedPLC.hh line 24). *)
Record plc := mkPLC { facets : list (list Z); holes : list (list (list Z)) }.
Record rplc (C : Type) := mkRPLC
  { rfacets : list (list Z); rholes : list (list (list Z)); rpoints : list C }.
Arguments mkRPLC {C}. Arguments rfacets {C}. Arguments rholes {C}. Arguments rpoints {C}.
(* Point2/Point3 (src/Point.hh lines 17-24, 92-100): coordinates and an unsigned index. *)
Record point2 (C : Type) := mkP2 { p2x : C; p2y : C; p2i : Z }.
Record point3 (C : Type) := mkP3 { p3x : C; p3y : C; p3z : C; p3i : Z }.
Arguments mkP2 {C}. Arguments p2x {C}. Arguments p2y {C}. Arguments p2i {C}.
Arguments mkP3 {C}. Arguments p3x {C}. Arguments p3y {C}. Arguments p3z {C}. Arguments p3i {C}.

(* The serializable C++ types.  [TScalar w signed]: a primitive of w bytes, e.g.
   unsigned = TScalar 4 false, int = TScalar 4 true, uint64_t = TScalar 8 false;
   a double is its 64-bit pattern, TScalar 8 false. *)
Inductive ty :=
| TScalar (w : nat) (signed : bool)
| TVec (t : ty)
| TPoint2 (t : ty)
| TPoint3 (t : ty)
| TPLC
| TReducedPLC (t : ty).

Fixpoint denote (t : ty) : Type :=
  match t with
  | TScalar _ _ => Z
  | TVec t => list (denote t)
  | TPoint2 t => point2 (denote t)
  | TPoint3 t => point3 (denote t)
  | TPLC => plc
  | TReducedPLC t => rplc (denote t)
  end.

Definition TUnsigned := TScalar 4 false.
Definition TInt := TScalar 4 true.
Definition TDouble := TScalar 8 false.

(* Little endian object representation of w bytes. *)
Fixpoint le_bytes (w : nat) (z : Z) : list Z :=
  match w with O => [] | S w => z mod 256 :: le_bytes w (z / 256) end.
Fixpoint le_val (bs : list Z) : Z :=
  match bs with [] => 0 | b :: t => b + 256 * le_val t end.

(* Serializer<T>::serializeImpl for primitives, polytope_serialize.hh lines 28-33. *)
Definition scalar_enc (w : nat) (z : Z) : list Z := le_bytes w z.

(* Serializer<T>::deserializeImpl for primitives, lines 35-43.  [dbg] = contract build.
   In a build with NDEBUG the assertion is absent and a short buffer is read past
   its end. *)
Definition scalar_dec (w : nat) (signed dbg : bool) (buf : list Z) : res (Z * list Z) :=
  if (length buf <? w)%nat then (if dbg then Abort else UB)
  else let u := le_val (firstn w buf) in
       let v := if signed && (2 ^ (8 * Z.of_nat w - 1) <=? u) then u - 2 ^ (8 * Z.of_nat w) else u in
       Ok (v, skipn w buf).

(* const unsigned n = val.size()  (lines 52, 73, 94, 154): truncation to 32 bits. *)
Definition usize {A} (l : list A) : Z := Z.of_nat (length l) mod 2 ^ 32.

(* Serializer<std::vector<T>>::serializeImpl, lines 50-55 (and the textually
   identical nested specialisations, lines 71-76 and 92-97).  The loop writes the
   first n elements, n being the truncated size. *)
Definition vec_enc {A} (enc : A -> list Z) (l : list A) : list Z :=
  scalar_enc 4 (usize l) ++ flat_map enc (firstn (Z.to_nat (usize l)) l).

(* the loop of line 63: n elements, each deserialized into a default constructed slot *)
Fixpoint dec_loop {A} (dec : list Z -> res (A * list Z)) (n : nat) (buf : list Z)
  : res (list A * list Z) :=
  match n with
  | O => Ok ([], buf)
  | S n => do (a, buf1) <- dec buf;
           do (l, buf2) <- dec_loop dec n buf1;
           Ok (a :: l, buf2)
  end.

(* Serializer<std::vector<T>>::deserializeImpl, lines 57-64 (78-85, 99-106): the new
   elements are appended to the old contents.  n0 and n are unsigned, so n0 + n
   wraps; if it does the vector shrinks and val[n0 + i] is out of range: UB. *)
Definition vec_dec {A} (dec : list Z -> res (A * list Z)) (dbg : bool) (old : list A) (buf : list Z)
  : res (list A * list Z) :=
  do (n, buf1) <- scalar_dec 4 false dbg buf;
  if 2 ^ 32 <=? usize old + n then UB else
  do (l, buf2) <- dec_loop dec (Z.to_nat n) buf1;
  Ok (old ++ l, buf2).

(* A default constructed object of each type (Point2(): src/Point.hh line 23; scalars
   created by vector::resize are value-initialised to 0). *)
Fixpoint fresh (t : ty) : denote t :=
  match t with
  | TScalar _ _ => 0
  | TVec _ => []
  | TPoint2 t => mkP2 (fresh t) (fresh t) 0
  | TPoint3 t => mkP3 (fresh t) (fresh t) (fresh t) 0
  | TPLC => mkPLC [] []
  | TReducedPLC t => mkRPLC [] [] []
  end.

Definition int_enc := scalar_enc 4.
Definition ints_enc := vec_enc int_enc.
Definition int_dec (dbg : bool) := scalar_dec 4 true dbg.
Definition ints_dec dbg (old : list Z) := vec_dec (int_dec dbg) dbg old.
Definition facets_dec dbg (old : list (list Z)) := vec_dec (ints_dec dbg []) dbg old.
Definition holes_dec dbg (old : list (list (list Z))) := vec_dec (facets_dec dbg []) dbg old.

(* serialize<T>, lines 112-116, dispatching on the type:
   Point2/3: src/Point.hh lines 73-78, 150-156; PLC: lines 132-136;
   ReducedPLC: lines 152-159 (facet count, each facet, holes, points). *)
Fixpoint serialize (t : ty) : denote t -> list Z :=
  match t as t return denote t -> list Z with
  | TScalar w _ => scalar_enc w
  | TVec t => vec_enc (serialize t)
  | TPoint2 t => fun p => serialize t (p2x p) ++ serialize t (p2y p) ++ scalar_enc 4 (p2i p)
  | TPoint3 t => fun p => serialize t (p3x p) ++ serialize t (p3y p) ++ serialize t (p3z p)
                            ++ scalar_enc 4 (p3i p)
  | TPLC => fun p => vec_enc ints_enc (facets p) ++ vec_enc (vec_enc ints_enc) (holes p)
  | TReducedPLC t => fun p =>
      scalar_enc 4 (usize (rfacets p))
      ++ flat_map ints_enc (firstn (Z.to_nat (usize (rfacets p))) (rfacets p))
      ++ vec_enc (vec_enc ints_enc) (rholes p)
      ++ vec_enc (serialize t) (rpoints p)
  end.

(* val.facets.resize(nf), line 166: keep the first nf, pad with empty facets. *)
Definition resize {A} (d : A) (n : nat) (l : list A) : list A :=
  firstn n l ++ repeat d (n - length l).

(* the loop of line 167: each facet slot is deserialized in place, i.e. appended to. *)
Fixpoint dec_into {A} (dec : A -> list Z -> res (A * list Z)) (olds : list A) (buf : list Z)
  : res (list A * list Z) :=
  match olds with
  | [] => Ok ([], buf)
  | o :: olds => do (a, buf1) <- dec o buf;
                 do (l, buf2) <- dec_into dec olds buf1;
                 Ok (a :: l, buf2)
  end.

(* deserialize<T>(val, bufItr, endItr), lines 118-123: [old] is the value of the
   target before the call, the result is its new value and the remaining buffer.
   Point2/3: src/Point.hh lines 80-86, 158-165; PLC: lines 138-143;
   ReducedPLC: lines 161-170. *)
Fixpoint deserialize (t : ty) (dbg : bool) : denote t -> list Z -> res (denote t * list Z) :=
  match t as t return denote t -> list Z -> res (denote t * list Z) with
  | TScalar w s => fun _ buf => scalar_dec w s dbg buf
  | TVec t => fun old buf => vec_dec (deserialize t dbg (fresh t)) dbg old buf
  | TPoint2 t => fun old buf =>
      do (x, b1) <- deserialize t dbg (p2x old) buf;
      do (y, b2) <- deserialize t dbg (p2y old) b1;
      do (i, b3) <- scalar_dec 4 false dbg b2;
      Ok (mkP2 x y i, b3)
  | TPoint3 t => fun old buf =>
      do (x, b1) <- deserialize t dbg (p3x old) buf;
      do (y, b2) <- deserialize t dbg (p3y old) b1;
      do (z, b3) <- deserialize t dbg (p3z old) b2;
      do (i, b4) <- scalar_dec 4 false dbg b3;
      Ok (mkP3 x y z i, b4)
  | TPLC => fun old buf =>
      do (f, b1) <- facets_dec dbg (facets old) buf;
      do (h, b2) <- holes_dec dbg (holes old) b1;
      Ok (mkPLC f h, b2)
  | TReducedPLC t => fun old buf =>
      do (nf, b0) <- scalar_dec 4 false dbg buf;
      do (f, b1) <- dec_into (ints_dec dbg) (resize [] (Z.to_nat nf) (rfacets old)) b0;
      do (h, b2) <- holes_dec dbg (rholes old) b1;
      do (p, b3) <- vec_dec (deserialize t dbg (fresh t)) dbg (rpoints old) b2;
      Ok (mkRPLC f h p, b3)
  end.

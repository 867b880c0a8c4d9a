(* Model of the C interface to tessellators, polytope_c/polytope_tessellator.cc lines 215-390, on top of
   CTessModel (the tessellation object and fill_tessellation) and CPlcModel (the PLC object and fill_plc).
   The C++ tessellators are the values of a record.  Their methods are const and called on a tessellation
   that is new, so each is a function of its arguments.  The memory of the handles and that of the
   tessellation object are kept apart. *)
From Coq Require Import String.
From Verif Require Import Base SerializeModel MeshModel CTessModel.
From Verif Require CPlcModel.

(* Tessellator<D, RealType>, src/Tessellator.hh lines 41-152: the methods the C interface calls.  low and
   high are passed on as pointers. *)
Record cpp V := mkCpp { unbounded : list V -> res (mesh V); inBox : list V -> list V -> list V -> res (mesh V);
  inPlc : list V -> list V -> plc -> res (mesh V); handlesPLCs : bool; cppName : string; degeneracy : V }.
Arguments mkCpp {V}. Arguments unbounded {V}. Arguments inBox {V}. Arguments inPlc {V}. Arguments handlesPLCs {V}.
Arguments cppName {V}. Arguments degeneracy {V}.

(* What the memory holds: handles (struct polytope_tessellator_t, lines 216-220), C++ tessellators, and the
   characters of a std::string *)
Inductive object V := OHandle (tess2 tess3 : ptr) | OCpp (c : cpp V) | OString (s : string).
Arguments OHandle {V}. Arguments OCpp {V}. Arguments OString {V}.
Definition memory V := list (option (object V)).

Section Tessl.
  Context {V : Type} (zn : bool).

  (* free(p) and delete p *)
  Definition release (m : memory V) (p : ptr) : res (memory V) :=
    match p with
    | Undef => UB
    | Null => Ok m
    | Ptr a => match nth_error m a with Some (Some _) => Ok (upd m a None) | _ => UB end
    end.
  (* tessellator->tess2 and tess3 *)
  Definition fields (m : memory V) (a : nat) : res (ptr * ptr) :=
    match nth_error m a with Some (Some (OHandle p2 p3)) => Ok (p2, p3) | _ => UB end.
  (* *p for a C++ tessellator *)
  Definition deref (m : memory V) (p : ptr) : res (cpp V) :=
    match p with Ptr a => match nth_error m a with Some (Some (OCpp c)) => Ok c | _ => UB end | _ => UB end.
  Definition notNull (p : ptr) : bool := match p with Null => false | _ => true end.

  (* boost_tessellator_new, triangle_tessellator_new (lines 355-373) and tetgen_tessellator_new (lines
     379-385): the struct and then the object are allocated *)
  Definition new2 (c : cpp V) (m : memory V) : memory V * nat :=
    let a := List.length m in (m ++ [Some (OHandle (Ptr (S a)) Null); Some (OCpp c)], a).
  Definition new3 (c : cpp V) (m : memory V) : memory V * nat :=
    let a := List.length m in (m ++ [Some (OHandle Null (Ptr (S a))); Some (OCpp c)], a).

  (* polytope_tessellator_free, lines 224-231 *)
  Definition tesslFree (m : memory V) (a : nat) : res (memory V) :=
    do f <- fields m a;
    do m <- (if notNull (fst f) then release m (fst f) else release m (snd f));
    release m (Ptr a).

  (* vector<polytope_real_t> v(p, p + n) *)
  Definition vector (p : list V) (n : nat) : res (list V) :=
    if n <=? List.length p then Ok (firstn n p) else UB.

  (* polytope_tessellator_tessellate_unbounded, lines 235-254.  num_points is not negative. *)
  Definition tessUnbounded (m : memory V) (a : nat) (points : list V) (num_points : nat) (w : world V) : res (world V) :=
    do f <- fields m a;
    if notNull (fst f) then
      do pts <- vector points (2 * num_points);
      do c <- deref m (fst f);
      do t <- unbounded c pts;
      fillC zn 2 t w
    else
      do _ <- assert (notNull (snd f));
      do pts <- vector points (3 * num_points);
      do c <- deref m (snd f);
      do t <- unbounded c pts;
      fillC zn 3 t w.

  (* polytope_tessellator_tessellate_in_box, lines 258-279 *)
  Definition tessInBox (m : memory V) (a : nat) (points : list V) (num_points : nat) (low high : list V) (w : world V) : res (world V) :=
    do f <- fields m a;
    if notNull (fst f) then
      do pts <- vector points (2 * num_points);
      do c <- deref m (fst f);
      do t <- inBox c pts low high;
      fillC zn 2 t w
    else
      do _ <- assert (notNull (snd f));
      do pts <- vector points (3 * num_points);
      do c <- deref m (snd f);
      do t <- inBox c pts low high;
      fillC zn 3 t w.

  (* polytope_tessellator_tessellate_in_plc, lines 283-310 *)
  Definition tessInPlc (m : memory V) (a : nat) (points : list V) (num_points : nat) (plc_points : list V) (num_plc_points : nat)
    (h : CPlcModel.handle) (w : world V) : res (world V) :=
    do f <- fields m a;
    if notNull (fst f) then
      do pts <- vector points (2 * num_points);
      do plc_pts <- vector plc_points (2 * num_plc_points);
      do p <- CPlcModel.fillCpp 2 h;
      do c <- deref m (fst f);
      do t <- inPlc c pts plc_pts p;
      fillC zn 2 t w
    else
      do _ <- assert (notNull (snd f));
      do pts <- vector points (3 * num_points);
      do plc_pts <- vector plc_points (3 * num_plc_points);
      do p <- CPlcModel.fillCpp 3 h;
      do c <- deref m (snd f);
      do t <- inPlc c pts plc_pts p;
      fillC zn 3 t w.

  (* polytope_tessellator_handles_plcs, lines 314-320 *)
  Definition tesslHandles (m : memory V) (a : nat) : res bool :=
    do f <- fields m a;
    if notNull (fst f) then do c <- deref m (fst f); Ok (handlesPLCs c) else do c <- deref m (snd f); Ok (handlesPLCs c).
  (* polytope_tessellator_name, lines 324-330: name() returns a std::string by value, which is destroyed
     when the function returns; the characters are taken to be in memory of their own (in the string
     object itself, on the stack, they are gone just as well) *)
  Definition tesslName (m : memory V) (a : nat) : res (memory V * ptr) :=
    do f <- fields m a;
    do c <- (if notNull (fst f) then deref m (fst f) else deref m (snd f));
    let p := Ptr (List.length m) in
    do m <- release (m ++ [Some (OString (cppName c))]) p;
    Ok (m, p).
  (* the caller reads a const char* *)
  Definition readString (m : memory V) (p : ptr) : res string :=
    match p with Ptr a => match nth_error m a with Some (Some (OString s)) => Ok s | _ => UB end | _ => UB end.
  (* polytope_tessellator_degeneracy, lines 334-340 *)
  Definition tesslDegeneracy (m : memory V) (a : nat) : res V :=
    do f <- fields m a;
    if notNull (fst f) then do c <- deref m (fst f); Ok (degeneracy c) else do c <- deref m (snd f); Ok (degeneracy c).
  (* polytope_tessellator_dimension, lines 344-350 *)
  Definition tesslDimension (m : memory V) (a : nat) : res nat :=
    do f <- fields m a; Ok (if notNull (fst f) then 2 else 3).

  (* A caller's history: handles are made and freed, and points tessellated into one C tessellation *)
  Inductive step := New2 (c : cpp V) | New3 (c : cpp V) | Free (a : nat) | ClearMesh
    | Unbounded (a : nat) (points : list V) (n : nat)
    | InBox (a : nat) (points : list V) (n : nat) (low high : list V)
    | InPlc (a : nat) (points : list V) (n : nat) (plc_points : list V) (k : nat) (h : CPlcModel.handle).
  Definition doStep (s : memory V * world V) (x : step) : res (memory V * world V) :=
    let (m, w) := s in
    match x with
    | New2 c => Ok (fst (new2 c m), w)
    | New3 c => Ok (fst (new3 c m), w)
    | Free a => do m <- tesslFree m a; Ok (m, w)
    | ClearMesh => do w <- tessClear w; Ok (m, w)
    | Unbounded a points n => do w <- tessUnbounded m a points n w; Ok (m, w)
    | InBox a points n low high => do w <- tessInBox m a points n low high w; Ok (m, w)
    | InPlc a points n pp k h => do w <- tessInPlc m a points n pp k h w; Ok (m, w)
    end.
  (* from polytope_tessellation_new(D) on *)
  Definition run (D : nat) (l : list step) : res (memory V * world V) :=
    do w <- tessNew D; mfold doStep l ([], w).
End Tessl.

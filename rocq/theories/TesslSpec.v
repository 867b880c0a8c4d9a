(* What the C interface to tessellators should do. *)
From Verif Require Import Base SerializeModel MeshModel CTessModel CTessSpec TesslModel.

Section Spec.
  Context {V : Type}.
  (* the call makes a handle for the C++ tessellator c of dimension D *)
  Definition Makes (D : nat) (c : cpp V) (x : step) : Prop := (D = 2 /\ x = New2 c) \/ (D = 3 /\ x = New3 c).
  (* In the history l of calls that ended in the state (m, w), the handle a was made for c and was not
     freed since.  D0 is the dimension given to polytope_tessellation_new. *)
  Definition Held (zn : bool) (D0 : nat) (l : list step) (D : nat) (c : cpp V) (a : nat) : Prop :=
    exists l1 x l2 m1 w1, l = l1 ++ x :: l2 /\ Makes D c x /\ run zn D0 l1 = Ok (m1, w1) /\
      a = snd (if D =? 2 then new2 c m1 else new3 c m1) /\ ~ In (Free a) l2.
  (* the same handle after it was freed *)
  Definition Dropped (zn : bool) (D0 : nat) (l : list step) (D : nat) (c : cpp V) (a : nat) : Prop :=
    exists l1 x l2 m1 w1, l = l1 ++ x :: l2 /\ Makes D c x /\ run zn D0 l1 = Ok (m1, w1) /\
      a = snd (if D =? 2 then new2 c m1 else new3 c m1) /\ In (Free a) l2.
  (* Nothing is left of the handles *)
  Definition Gone (m : memory V) : Prop := forall a o, nth_error m a <> Some (Some o).

  (* The C++ tessellator gives tessellations of dimension D that have a face and whose sizes fit together *)
  Definition Delivers (D : nat) (c : cpp V) : Prop :=
    (forall pts t, unbounded c pts = Ok t -> Shaped D t /\ faces t <> []) /\
    (forall pts low high t, inBox c pts low high = Ok t -> Shaped D t /\ faces t <> []) /\
    (forall pts pp p t, inPlc c pts pp p = Ok t -> Shaped D t /\ faces t <> []).
  (* All handles of the history are of one dimension and work *)
  Definition Uniform (D : nat) (l : list step) : Prop :=
    forall x c D', In x l -> Makes D' c x -> D' = D /\ Delivers D c.

  (* what comes back of a tessellation: the convex hull is not copied *)
  Definition withHull (t t0 : mesh V) : mesh V :=
    mkMesh (nodes t) (cells t) (faces t) (boundaryNodes t) (boundaryFaces t) (faceCells t) (convexHull t0)
           (neighborDomains t) (sharedNodes t) (sharedFaces t).
End Spec.

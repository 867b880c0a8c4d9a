(* What the C interface to tessellations should do. *)
From Verif Require Import Base SerializeModel MeshModel CTessModel.

Section Spec.
  Context {V : Type}.
  (* The sizes of a tessellation fit together: whole nodes, one or two cells for every face, one list of
     shared nodes and faces for every neighbor domain. *)
  Record Shaped (D : nat) (t : mesh V) : Prop := {
    shaped_nodes : length (nodes t) mod D = 0;
    shaped_faceCells : length (faceCells t) = length (faces t);
    shaped_cells : forall fc, In fc (faceCells t) -> length fc = 1 \/ length fc = 2;
    shaped_sharedNodes : length (sharedNodes t) = length (neighborDomains t);
    shaped_sharedFaces : length (sharedFaces t) = length (neighborDomains t) }.
  (* No face has ~0 = -1 as the second of its cells: the C arrays use it for "no cell" *)
  Definition Tellable (t : mesh V) : Prop := forall c d, In [c; d] (faceCells t) -> d <> (-1)%Z.

  (* Nothing is allocated *)
  Definition Released (h : heap V) : Prop := forall a b, nth_error h a <> Some (Some b).

  Definition isClear (a : @action V) : bool := match a with Clear => true | _ => false end.
  (* a and b are done one right after the other *)
  Definition Adjacent (l : list (@action V)) (a b : @action V) : Prop := exists l1 l2, l = l1 ++ a :: b :: l2.
  (* The histories that do not end in undefined behaviour: the object is filled before anything else
     is done with it, and a clear is followed by a fill. *)
  Definition Careful (l : list (@action V)) : Prop :=
    (exists t l', l = Fill t :: l') /\ (forall l', l <> l' ++ [Clear]) /\ ~ Adjacent l Clear Clear.
  (* The histories that clear before every fill but the first *)
  Definition Tidy (l : list (@action V)) : Prop := forall t t', ~ Adjacent l (Fill t) (Fill t').
End Spec.

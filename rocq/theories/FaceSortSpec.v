(* What "the edges form a closed loop / a chain" means. *)
From Verif Require Import Base.
From Coq Require Import Permutation.

(* edge e joins nodes a and b (in either direction) *)
Definition joins {E} (ends : E -> Z * Z) (e : E) (a b : Z) : Prop :=
  ends e = (a, b) \/ ends e = (b, a).

(* walking along the edges es one after the other, starting at node a, visits the nodes ns *)
Fixpoint route {E} (ends : E -> Z * Z) (a : Z) (es : list E) (ns : list Z) : Prop :=
  match es, ns with
  | [], [] => True
  | e :: es, b :: ns => joins ends e a b /\ route ends b es ns
  | _, _ => False
  end.

(* the edges, in this order, go once around a loop of distinct nodes *)
Definition cycle {E} (ends : E -> Z * Z) (es : list E) : Prop :=
  exists a ns, route ends a es ns /\ last ns a = a /\ NoDup ns.

(* the edges, in this order, form a path through distinct nodes *)
Definition path {E} (ends : E -> Z * Z) (es : list E) : Prop :=
  exists a ns, route ends a es ns /\ NoDup (a :: ns).

(* a closed face: some ordering of all its edges goes once around a loop *)
Definition ClosedFace (edges : list (Z * Z)) : Prop :=
  exists es, Permutation es (seq 0 (length edges)) /\ cycle (fun i => nth i edges (0, 0)%Z) es.
(* an open face: some ordering of all its edges is a path *)
Definition OpenFace (edges : list (Z * Z)) : Prop :=
  exists es, Permutation es (seq 0 (length edges)) /\ path (fun i => nth i edges (0, 0)%Z) es.

(* the edge named by a signed index, in the direction given by the sign *)
Definition sedge (edges : list (Z * Z)) (z : Z) : Z * Z :=
  let e := nth (pid z) edges (0, 0)%Z in if (0 <=? z)%Z then e else (snd e, fst e).

(* every signed edge ends where the next one starts, cyclically *)
Definition head_to_tail (edges : list (Z * Z)) (r : list Z) : Prop :=
  forall i z z', nth_error r i = Some z -> nth_error r ((i + 1) mod length r) = Some z' ->
    snd (sedge edges z) = fst (sedge edges z').

(* a node that occurs exactly once among the edge ends *)
Definition loose (edges : list (Z * Z)) (k : Z) : Prop :=
  count_occ Z.eq_dec (flat_map (fun e => [fst e; snd e]) edges) k = 1.

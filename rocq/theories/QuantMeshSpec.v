(* What a quantized mesh should say about the diagram it was read from. *)
From Verif Require Import Base.

(* An oriented edge: id e walked from its first to its second node, ~e the other way.
   The two end points of a signed edge id, tail first. *)
Definition oriented_ends {P} (nodes : list P) (edges : list (nat * nat)) (z : Z) : option (P * P) :=
  match nth_error edges (pid z) with
  | None => None
  | Some (a, b) =>
      let (t, h) := if (0 <=? z)%Z then (a, b) else (b, a) in
      match nth_error nodes t, nth_error nodes h with
      | Some p, Some q => Some (p, q)
      | _, _ => None
      end
  end.

(* what remains of a list of walked segments when end points are moved by snap and
   segments of length zero are dropped *)
Definition snapped {P} (eqb : P -> P -> bool) (snap : P -> P) (segs : list (P * P)) : list (P * P) :=
  filter (fun s => negb (eqb (fst s) (snd s))) (map (fun s => (snap (fst s), snap (snd s))) segs).

Definition pt_eqb (p q : Z * Z) : bool := (fst p =? fst q)%Z && (snd p =? snd q)%Z.

(* the segments cell i ends up with, when cells are read out in the given order and a
   cleared cell starts again *)
Definition wanted {S} (i : nat) (evs : list (nat * bool * list S)) : list S :=
  fold_left (fun acc e => let '(j, clear, segs) := e in
                          if j =? i then (if clear : bool then segs else acc ++ segs) else acc) evs [].

(* every segment walked *)
Definition walked {S} (evs : list (nat * bool * list S)) : list S := flat_map snd evs.

Record ReadOut (close : Z * Z -> Z * Z -> Prop) (ngen : nat)
    (evs : list (nat * bool * list ((Z * Z) * (Z * Z))))
    (snap : Z * Z -> Z * Z) (nodes : list (Z * Z)) (edges : list (nat * nat)) (cells : list (list Z)) : Prop := {
  (* each walked point is represented by a node close to it; every node is a walked point
     that represents itself; no two nodes are close *)
  ro_snap : forall s p, In s (walked evs) -> p = fst s \/ p = snd s -> close (snap p) p /\ In (snap p) nodes;
  ro_nodes : forall q, In q nodes -> snap q = q /\ exists s, In s (walked evs) /\ (q = fst s \/ q = snd s);
  ro_apart : forall i j p q, nth_error nodes i = Some p -> nth_error nodes j = Some q -> close p q -> i = j;
  (* edges are unique, stored smaller node first, and each comes from a walked segment *)
  ro_edges : NoDup edges;
  ro_order : forall a b, In (a, b) edges -> a < b /\ b < length nodes;
  ro_used : forall a b, In (a, b) edges -> exists s, In s (walked evs) /\
     ((nth_error nodes a = Some (snap (fst s)) /\ nth_error nodes b = Some (snap (snd s))) \/
      (nth_error nodes a = Some (snap (snd s)) /\ nth_error nodes b = Some (snap (fst s))));
  (* every cell walks exactly its snapped segments, in order *)
  ro_ncells : length cells = ngen;
  ro_cells : forall i c, nth_error cells i = Some c ->
     map (oriented_ends nodes edges) c = map Some (snapped pt_eqb snap (wanted i evs)) }.

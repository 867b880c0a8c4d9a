(* Model of writePLCtoOFF, src/polytope_write_OOGL.hh lines 20-160.  A file is its list of lines, a line
   its list of words; how a coordinate is printed (six digits by default) is not modelled, a coordinate
   stands for its own text.  If an assertion fails the file stays as far as it was written; the model
   only has Abort. *)
From Verif Require Import Base SerializeModel MeshModel.

Inductive word {V : Type} := WOff | WNum (z : Z) | WReal (v : V).
Arguments word : clear implicits.

Definition zpair_dec : forall p q : Z * Z, {p = q} + {p <> q}.
Proof. decide equality; apply Z.eq_dec. Defined.

Section Off.
  Context {V : Type}.
  (* internal::hashEdge, src/polytope_internal.hh lines 131-134 *)
  Definition hash_edge (a b : Z) : res (Z * Z) :=
    do _ <- assert (negb (a =? b)%Z); Ok (if (a <? b)%Z then (a, b) else (b, a)).
  (* lines 36-45: the set of edges, with the assertions on lines 37 and 42 *)
  Definition edge_set (fs : list (list Z)) : res (list (Z * Z)) :=
    mfold (fun es f => match f with
                       | [a; b] => do e <- hash_edge a b; Ok (if in_dec zpair_dec e es then es else es ++ [e])
                       | _ => Abort
                       end) fs [].
  (* lines 55-57 and 130-132 *)
  Definition point_lines (D : nat) (coords : list V) : res (list (list (word V))) :=
    mmap (fun i => mmap (fun j => do x <- get coords (D * i + j); Ok (WReal x)) (seq 0 D)) (seq 0 (length coords / D)).
  (* lines 60-68 (with the assertion of line 62) and 135-142 *)
  Definition facet_line (D : nat) (f : list Z) : res (list (word V)) :=
    do _ <- assert (if D =? 2 then length f =? 2 else true);
    Ok (WNum (Z.of_nat (length f)) :: map WNum f).
  Definition writeOFF (D : nat) (p : plc) (coords : list V) : res (list (list (word V))) :=
    do _ <- assert (length coords mod D =? 0);                                  (* lines 27, 96 *)
    do es <- (if D =? 2 then edge_set (facets p ++ concat (holes p)) else Ok []); (* lines 35-46; 105-120 are commented out *)
    do pls <- point_lines D coords;
    do fls <- mmap (facet_line D) (facets p);
    do hls <- mmap (mmap (facet_line D)) (holes p);                             (* lines 71-81, 145-154 *)
    Ok ([WOff] :: [WNum (Z.of_nat (length coords / D)); WNum (Z.of_nat (length (facets p))); WNum (Z.of_nat (length es))]
        :: pls ++ fls ++ concat hls).
End Off.

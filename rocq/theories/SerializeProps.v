(* Properties C01-C04: serialization. *)
From Verif Require Import Base SerializeModel SerializeSpec SerializeProofs.
Local Open Scope Z_scope.

Ltac fits :=
  repeat first [ progress (cbn -[Z.pow]; unfold fits_vec, fits_ints, fits_scalar)
               | apply Forall_nil | apply Forall_cons | split | lia ].

(* C01: writing a value and reading it into a default constructed object gives the
   value back and leaves exactly the bytes that followed it. *)
Theorem serialize_roundtrip :
  forall (t : ty) (dbg : bool) (v : denote t) (rest : list Z),
    fits t v ->
    deserialize t dbg (fresh t) (serialize t v ++ rest) = Ok (v, rest).
Proof. exact roundtrip. Qed.
Print Assumptions serialize_roundtrip.

Example serialize_roundtrip_nonvacuous :
  fits (TReducedPLC TDouble)
       (mkRPLC [[0; 1]; [1; 2]; [2; 0]] [[[3; -4]]] [4607182418800017408; 0; 7]).
Proof. fits. Qed.

(* C01, limit: the element count is stored in 32 bits, so no longer vector survives. *)
Theorem serialize_roundtrip_needs_small_vectors :
  forall (t : ty) (dbg : bool) (l : list (denote t)) (rest r : list Z),
    2 ^ 32 <= Z.of_nat (length l) ->
    deserialize (TVec t) dbg [] (serialize (TVec t) l ++ rest) <> Ok (l, r).
Proof. exact too_long. Qed.
Print Assumptions serialize_roundtrip_needs_small_vectors.

Example needs_small_vectors_nonvacuous :
  exists l : list (denote TInt), 2 ^ 32 <= Z.of_nat (length l).
Proof. exists (repeat 0 (Z.to_nat (2 ^ 32))). rewrite repeat_length, Z2Nat.id; lia. Qed.

(* C02: any number of values in one buffer. *)
Theorem serialize_sequence_roundtrip :
  forall (t : ty) (dbg : bool) (vs : list (denote t)) (rest : list Z),
    Forall (fits t) vs ->
    deserialize_all t dbg (length vs) (serialize_all t vs ++ rest) = Ok (vs, rest).
Proof. exact all_roundtrip. Qed.
Print Assumptions serialize_sequence_roundtrip.

(* C02: the encodings of one type form a prefix-free code; in particular the
   encoding is injective. *)
Theorem serialize_prefix_free :
  forall (t : ty) (v1 v2 : denote t) (r1 r2 : list Z),
    fits t v1 -> fits t v2 ->
    serialize t v1 ++ r1 = serialize t v2 ++ r2 -> v1 = v2 /\ r1 = r2.
Proof. exact prefix_free. Qed.
Print Assumptions serialize_prefix_free.

Example serialize_sequence_nonvacuous :
  Forall (fits (TVec (TPoint2 TInt))) [[mkP2 1 (-2) 3]; []; [mkP2 4 5 6; mkP2 0 0 0]].
Proof. fits. Qed.

(* C03: every strict prefix of an encoding is refused by a contract build; without
   contracts the read runs off the end of the buffer. *)
Theorem truncated_buffer_refused :
  forall (t : ty) (dbg : bool) (v : denote t) (k : nat),
    fits t v -> (k < length (serialize t v))%nat ->
    deserialize t dbg (fresh t) (firstn k (serialize t v)) = if dbg then Abort else UB.
Proof. exact truncated. Qed.
Print Assumptions truncated_buffer_refused.

Example truncated_nonvacuous :
  fits (TVec TInt) [1; 2] /\ (11 < length (serialize (TVec TInt) [1; 2]%Z))%nat.
Proof. split; [fits|vm_compute; lia]. Qed.

(* C04: deserializing into a non-empty vector appends. *)
Theorem deserialize_vector_appends :
  forall (t : ty) (dbg : bool) (old l : list (denote t)) (rest : list Z),
    fits (TVec t) l -> Z.of_nat (length old + length l) < 2 ^ 32 ->
    deserialize (TVec t) dbg old (serialize (TVec t) l ++ rest) = Ok (old ++ l, rest).
Proof. exact append. Qed.
Print Assumptions deserialize_vector_appends.

Example deserialize_vector_appends_nonvacuous :
  fits (TVec TInt) [7] /\ Z.of_nat (length [5; 6] + length [7]) < 2 ^ 32.
Proof. split; [fits|cbn; lia]. Qed.

(* C04: deserializing into a non-empty ReducedPLC: every facet slot that already
   existed keeps its old vertex indices in front of the new ones, and holes and
   points are appended. *)
Theorem deserialize_reduced_plc_appends :
  forall (t : ty) (dbg : bool) (old v : rplc (denote t)) (rest : list Z),
    fits (TReducedPLC t) v ->
    Forall2 (fun o x => Z.of_nat (length o + length x) < 2 ^ 32)
            (resize [] (length (rfacets v)) (rfacets old)) (rfacets v) ->
    Z.of_nat (length (rholes old) + length (rholes v)) < 2 ^ 32 ->
    Z.of_nat (length (rpoints old) + length (rpoints v)) < 2 ^ 32 ->
    deserialize (TReducedPLC t) dbg old (serialize (TReducedPLC t) v ++ rest)
    = Ok (mkRPLC (map (fun p => fst p ++ snd p)
                      (combine (resize [] (length (rfacets v)) (rfacets old)) (rfacets v)))
                 (rholes old ++ rholes v) (rpoints old ++ rpoints v), rest).
Proof. exact rplc_append. Qed.
Print Assumptions deserialize_reduced_plc_appends.

(* C04, finding: so the target of a deserialization must be empty.  Deserializing a
   ReducedPLC into itself does not even give the same object back. *)
Theorem deserialize_into_nonempty_refuted :
  exists (v old : rplc Z),
    fits (TReducedPLC TInt) v /\ fits (TReducedPLC TInt) old /\ v = old /\
    exists w r, deserialize (TReducedPLC TInt) true old (serialize (TReducedPLC TInt) v) = Ok (w, r)
                /\ w <> v.
Proof.
  exists (mkRPLC [[0; 1]] [] [10; 11; 12; 13]), (mkRPLC [[0; 1]] [] [10; 11; 12; 13]).
  split; [|split; [|split; [reflexivity|]]].
  - fits.
  - fits.
  - eexists; eexists; split; [vm_compute; reflexivity|discriminate].
Qed.
Print Assumptions deserialize_into_nonempty_refuted.

(* C45: the check of the communication lists of a distributed mesh. *)
From Verif Require Import Base BaseFacts SerializeModel SerializeSpec MeshModel MeshSpec MeshProps CollModel SerialDistModel SerialDistSpec SerialDistProps CheckModel CheckSpec CheckProofs CheckProofs2 CheckProofs3 CheckProofs4.
From Coq Require Import Sorted Lia.
From Coq Require String.
Import String.StringSyntax.

(* all ranks get the message of the lowest rank that has one, or none if there is none *)
Theorem reduce_same : forall n x, 0 < n -> (forall r, r < n -> (Z.of_nat (length (x r)) < 2 ^ 32)%Z) ->
  exists y, Together n (fun r => reduceToMaxString (x r) r n) (fun _ => Ok y) /\
    ((y = [] /\ forall r, r < n -> x r = []) \/ (exists r, r < n /\ x r <> [] /\ y = x r /\ forall s, s < r -> x s = [])).
Proof. intros n x Np B. destruct (lowest_ex n x) as [y Ly]. exists y. split; [apply reduce_ok; auto|exact Ly]. Qed.
Print Assumptions reduce_same.

(* t is the type of a hashed position and key its coordinates; txt is any text for a failed test
   that is not empty and shorter than 2^32.  All ranks return the same string, and it is "ok"
   exactly if the lists are good.  The guard Readable is missing in the code: see check_refuted. *)
Theorem check_verdict_partial : forall t key txt n (L : nat -> local t), 0 < n ->
  (forall k p r a b, txt k p r a b <> [] /\ (Z.of_nat (length (txt k p r a b)) < 2 ^ 32)%Z) ->
  (forall r, r < n -> Sane (L r)) -> Readable n L ->
  exists y, Together n (fun r => checkDistributed t key txt n r (hashed (L r)) (nbrs (L r)) (lists (L r))) (fun _ => Ok y) /\ (y = bytes "ok" <-> Good key n L).
Proof. intros t key txt n L Np Tx S R. apply check_ok; auto. Qed.
Print Assumptions check_verdict_partial.

(* good lists are accepted without the guard *)
Theorem check_accepts : forall t key txt n (L : nat -> local t), 0 < n ->
  (forall k p r a b, txt k p r a b <> [] /\ (Z.of_nat (length (txt k p r a b)) < 2 ^ 32)%Z) ->
  (forall r, r < n -> Sane (L r)) -> Good key n L ->
  Together n (fun r => checkDistributed t key txt n r (hashed (L r)) (nbrs (L r)) (lists (L r))) (fun _ => Ok (bytes "ok")).
Proof.
  intros t key txt n L Np Tx S G. destruct (check_ok t key txt n L Np Tx S) as (y & T & H).
  - intros r s k i l l' Lr Ls E1 E2 E3 E4 N. exfalso. apply N.
    assert (Q : forall q k l, q < n -> nth_error (lists (L q)) k = Some l -> exists hs, Forall2 (fun j h => nth_error (hashed (L q)) j = Some h) l hs).
    { clear - S. intros q k l Lq E. assert (I : forall j, In j l -> j < length (hashed (L q))) by (intros j Ij; apply (sa_ids _ (S q Lq) k l); auto). clear E. induction l as [|j l IH]; [exists []; constructor|]. destruct IH as [hs F]; [intros; apply I; right; auto|]. destruct (nth_error_ex (hashed (L q)) j) as [h Eh]; [apply I; left; auto|]. exists (h :: hs). constructor; auto. }
    destruct (Q r k l Lr E2) as [hs F]. destruct (Q s i l' Ls E4) as [hs' F']. assert (E : map key hs = map key hs'). { apply (gd_same _ _ _ G r s); auto; [exists k, l, hs; auto|exists i, l', hs'; auto]. }
    apply (f_equal (@length _)) in E. rewrite !map_length in E. apply Forall2_len in F. apply Forall2_len in F'. congruence.
  - apply (proj2 H) in G as Y. rewrite Y in T. exact T.
Qed.
Print Assumptions check_accepts.

(* what the serial distributed tessellator makes (C42) is good, if no two nodes of the whole mesh
   hash to the same position *)
Theorem serial_passes : forall V D n (m : mesh V) owns out kC kF kN t key (H : nat -> denote t),
  (forall r, r < n -> Domain D n m owns r (out r) (kC r) (kF r) (kN r)) ->
  (forall x y r s, r < n -> s < n -> RankNode m owns r x -> RankNode m owns s y -> key (H x) = key (H y) -> x = y) ->
  Good key n (fun r => mkLocal (map H (kN r)) (neighborDomains (out r)) (sharedNodes (out r))).
Proof. intros V D n m owns out kC kF kN t key H Dom Inj. eapply serial_good; eauto. Qed.
Print Assumptions serial_passes.

(* ---- examples, with Point2<int> ---- *)
Definition P2 : ty := TPoint2 (TScalar 4 true).
Definition xy (p : denote P2) : list Z := [p2x p; p2y p].
Definition at_ (x y : Z) : denote P2 := mkP2 x y 0%Z.
Definition say (k p r : nat) (a b : list (denote P2)) : list Z := bytes "Domain " ++ [Z.of_nat k; Z.of_nat p; Z.of_nat r].
Example say_text : forall k p r a b, say k p r a b <> [] /\ (Z.of_nat (length (say k p r a b)) < 2 ^ 32)%Z.
Proof. split; [discriminate|cbn; lia]. Qed.
Definition verdicts (n : nat) (L : nat -> local P2) : outcome (list Z) :=
  runs 1000 (map (fun r => checkDistributed P2 xy say n r (hashed (L r)) (nbrs (L r)) (lists (L r))) (seq 0 n)).

Lemma concat_len {A B} (f : A -> list B) l c : (forall a, length (f a) = c) -> length (flat_map f l) = c * length l.
Proof. intros H. induction l; cbn; [lia|]. rewrite app_length, H, IHl. lia. Qed.
Lemma p2_len p : length (serialize P2 p) = 12.
Proof. destruct p. reflexivity. Qed.
(* small data are sane *)
Definition saneb (x : local P2) : bool :=
  (fix up l := match l with a :: (b :: _) as t => (a <? b) && up t | _ => true end) (nbrs x) && (length (lists x) =? length (nbrs x)) &&
  forallb (fun l => forallb (fun j => j <? length (hashed x)) l && (length l <? 100)) (lists x) &&
  forallb (fun p => let ok z := ((0 <=? z) && (z <? 100))%Z in ok (p2x p) && ok (p2y p) && ok (p2i p)) (hashed x) && (length (nbrs x) <? 100) && (length (hashed x) <? 100).
Lemma small_sane (x : local P2) : saneb x = true -> Sane x.
Proof.
  unfold saneb. intros B. apply andb_prop in B as [B B6]. apply andb_prop in B as [B B5]. apply andb_prop in B as [B B4]. apply andb_prop in B as [B B3]. apply andb_prop in B as [B1 B2].
  apply Nat.ltb_lt in B5, B6. apply Nat.eqb_eq in B2. rewrite forallb_forall in B3, B4. constructor; auto.
  - apply Sorted_StronglySorted; [exact Nat.lt_trans|]. clear - B1. induction (nbrs x) as [|a [|b l] IH]; [constructor|repeat constructor|]. apply andb_prop in B1 as [B B1]. constructor; [apply IH; exact B1|constructor; apply Nat.ltb_lt; auto].
  - intros i l j El Ij. apply nth_error_In, B3, andb_prop in El as [El _]. rewrite forallb_forall in El. apply Nat.ltb_lt, El. auto.
  - apply Forall_forall. intros p Ip. apply B4 in Ip. cbv zeta in Ip. cbn [fits P2]. unfold fits_scalar. rewrite !andb_true_iff, !Z.leb_le, !Z.ltb_lt in Ip. change (2 ^ (8 * Z.of_nat 4 - 1))%Z with 2147483648%Z. change (2 ^ (8 * Z.of_nat 4))%Z with 4294967296%Z. lia.
  - rewrite (concat_len _ _ 12 p2_len). lia.
  - intros i l hs El Fl. apply Forall2_len in Fl. rewrite (concat_len _ _ 12 p2_len). apply nth_error_In, B3, andb_prop in El as [_ El]. apply Nat.ltb_lt in El. lia.
Qed.

(* two unit squares side by side, as rank 0 and rank 1 keep them *)
Definition left_right (r : nat) : local P2 :=
  match r with
  | 0 => mkLocal [at_ 0 0; at_ 1 0; at_ 0 1; at_ 1 1] [1] [[1; 3]]
  | _ => mkLocal [at_ 1 0; at_ 2 0; at_ 1 1; at_ 2 1] [0] [[0; 2]]
  end.
Ltac sane := apply small_sane; vm_compute; reflexivity.
Example left_right_sane : forall r, r < 2 -> Sane (left_right r).
Proof. intros r L. destruct r as [|[|]]; [| |lia]; sane. Qed.
Example left_right_readable : Readable 2 left_right.
Proof. intros r s k i l l' Lr Ls E1 E2 E3 E4 N. destruct r as [|[|]], s as [|[|]]; try lia; destruct k as [|[|]]; cbn in *; try discriminate; lia. Qed.
Example left_right_ok : verdicts 2 left_right = Done [Ok (bytes "ok"); Ok (bytes "ok")].
Proof. vm_compute. reflexivity. Qed.
Example left_right_good : Good xy 2 left_right.
Proof.
  destruct (check_verdict_partial P2 xy say 2 left_right ltac:(lia) say_text left_right_sane left_right_readable) as (y & T & H). apply H.
  destruct (runs_sound _ _ _ T 1000) as [E|E]; change (runs 1000 _) with (verdicts 2 left_right) in E; rewrite left_right_ok in E; [discriminate|]. cbn [seq map] in E. congruence.
Qed.
(* the lists in different orders are noticed, by all ranks *)
Definition crossed (r : nat) : local P2 := match r with 0 => left_right 0 | _ => mkLocal (hashed (left_right 1)) [0] [[2; 0]] end.
Example crossed_noticed : verdicts 2 crossed = Done [Ok (bytes "Node : " ++ say 2 0 1 [] []); Ok (bytes "Node : " ++ say 2 0 1 [] [])].
Proof. vm_compute. reflexivity. Qed.
(* a shared node left out of both lists is noticed *)
Definition left_out (r : nat) : local P2 := match r with 0 => mkLocal (hashed (left_right 0)) [1] [[1]] | _ => mkLocal (hashed (left_right 1)) [0] [[0]] end.
Example left_out_noticed : verdicts 2 left_out = Done [Ok (bytes "Node : " ++ say 5 0 1 [] []); Ok (bytes "Node : " ++ say 5 0 1 [] [])].
Proof. vm_compute. reflexivity. Qed.
(* one that does not talk to the other *)
Definition alone (r : nat) : local P2 := match r with 0 => left_right 0 | _ => mkLocal (hashed (left_right 1)) [] [] end.
Example alone_noticed : verdicts 2 alone = Done [Ok dont_agree; Ok dont_agree].
Proof. vm_compute. reflexivity. Qed.
(* a neighbor that is no rank is not noticed *)
Definition stranger (r : nat) : local P2 := match r with 0 => mkLocal (hashed (left_right 0)) [1; 9] [[1; 3]; [0]] | _ => left_right 1 end.
Example stranger_passes : verdicts 2 stranger = Done [Ok (bytes "ok"); Ok (bytes "ok")].
Proof. vm_compute. reflexivity. Qed.

(* Rank 1 lists two nodes for rank 2, which lists one for rank 1.  Rank 2 sees it, but line 111
   asks for the size of its list number 1, and it has one list only. *)
Definition lopsided (r : nat) : local P2 :=
  match r with
  | 0 => mkLocal [at_ 0 0] [1] [[0]]
  | 1 => mkLocal [at_ 0 0; at_ 1 0; at_ 1 1] [0; 2] [[0]; [1; 2]]
  | _ => mkLocal [at_ 1 0; at_ 1 1] [1] [[0]]
  end.
Theorem check_refuted : (forall r, r < 3 -> Sane (lopsided r)) /\
  ~ exists a, Together 3 (fun r => checkDistributed P2 xy say 3 r (hashed (lopsided r)) (nbrs (lopsided r)) (lists (lopsided r))) a.
Proof.
  split; [intros r L; destruct r as [|[|[|]]]; [| | |lia]; sane|].
  intros [a T]. destruct (runs_sound _ _ _ T 1000) as [E|E]; vm_compute in E; discriminate.
Qed.
Print Assumptions check_refuted.
Example lopsided_out_of_range : judge P2 xy say 2 (hashed (lopsided 2)) (nbrs (lopsided 2)) (lists (lopsided 2)) 1 1 2 [at_ 1 0; at_ 1 1] [] = UB.
Proof. reflexivity. Qed.

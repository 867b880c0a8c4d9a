(* The cells built one after the other. *)
From Coq Require Import QArith Sorted Permutation.
From Verif Require Import Base BaseFacts StdAlg KeyMapModel KeyMapProofs FaceSortModel FaceSortSpec FaceSortProofs FaceSortProofs4 SerializeModel MeshEditorModel MeshEditorProofs2 QuantMeshModel BoxModel PLCSpec Plane AreaModel AreaProofs2 PolygonProofs2 TriModel TriSpec TriProofs TriProofs2 TriProofs3.
Local Open Scope nat_scope.

Lemma way_app edges l z v : way edges z = Some v -> way (edges ++ l) z = Some v.
Proof.
  unfold way. destruct (nth_error edges (pid z)) as [[a b]|] eqn:E; [|discriminate].
  rewrite nth_error_app1, E by (eapply nth_error_lt; eauto). auto.
Qed.
Lemma way_edge edges z a b : way edges z = Some (a, b) -> nth_error edges (pid z) = Some (a, b) \/ nth_error edges (pid z) = Some (b, a).
Proof.
  unfold way. destruct (nth_error edges (pid z)) as [[x y]|]; [|discriminate]. destruct (0 <=? z)%Z; intros E; injection E as -> ->; auto.
Qed.
Lemma map_way_app edges l c v : map (way edges) c = map Some v -> map (way (edges ++ l)) c = map Some v.
Proof.
  revert v. induction c as [|z c IH]; intros [|x v] E; try discriminate; auto. cbn [map] in *.
  assert (E1 : way edges z = Some x) by congruence. assert (E2 : map (way edges) c = map Some v) by congruence.
  rewrite (way_app _ _ _ _ E1), (IH _ E2). auto.
Qed.

Lemma edge_key_cases a b : a <> b -> (a < b /\ edge_key a b = (a, b)) \/ (b < a /\ edge_key a b = (b, a)).
Proof. intros N. unfold edge_key. destruct (Nat.ltb_spec a b); [left|right]; split; auto; lia. Qed.

Lemma ring_edge_ok r i x y e2id edges c : positional e2id -> edges = map fst e2id ->
  nth_error r i = Some x -> nth_error r ((i + 1) mod length r) = Some y -> x <> y ->
  exists e2id' edges' z, ring_edge r (e2id, edges, c) i = Ok (e2id', edges', c ++ [z]) /\ positional e2id' /\ edges' = map fst e2id' /\
    way edges' z = Some (x, y) /\ (edges' = edges \/ edges' = edges ++ [edge_key x y]).
Proof.
  intros P Ed Hx Hy N. unfold ring_edge. rewrite (proj2 (get_ok _ _ _) Hx), (proj2 (get_ok _ _ _) Hy). cbn [bind].
  rewrite (proj2 (Nat.eqb_neq x y)) by auto. cbn [negb assert bind].
  destruct (addKeyToMap nedge_lt (edge_key x y) e2id) as [e1 m'] eqn:A. cbv iota beta.
  destruct (add_pos _ _ _ _ P A) as (P' & Ne & D).
  assert (W : way (map fst m') (if fst (edge_key x y) =? x then Z.of_nat e1 else Z.lnot (Z.of_nat e1)) = Some (x, y)).
  { destruct (edge_key_cases x y N) as [[L E]|[L E]]; rewrite E in *; cbn [fst].
    - rewrite Nat.eqb_refl. unfold way. rewrite pid_of_nat, Ne. rewrite (proj2 (Z.leb_le 0 _)) by lia. auto.
    - rewrite (proj2 (Nat.eqb_neq y x)) by auto. unfold way. rewrite pid_lnot_of_nat, Ne. rewrite (proj2 (Z.leb_gt 0 _)); auto. unfold Z.lnot. lia. }
  destruct D as [[-> L]|(-> & -> & Ni)].
  - rewrite (proj2 (Nat.eqb_neq e1 (length e2id))) by lia. cbn [bind]. subst edges. do 3 eexists. split; [reflexivity|]. auto.
  - rewrite Nat.eqb_refl. subst edges. rewrite map_length, Nat.eqb_refl. cbn [assert bind]. do 3 eexists. split; [reflexivity|].
    rewrite map_app in *. auto.
Qed.

Lemma firstn_snoc {A} (l : list A) k a : nth_error l k = Some a -> firstn (k + 1) l = firstn k l ++ [a].
Proof.
  revert k. induction l as [|x l IH]; intros [|k] H; cbn in *; try discriminate.
  - injection H as ->. auto.
  - rewrite (IH _ H). auto.
Qed.

Lemma ring_fold r e2id edges : positional e2id -> edges = map fst e2id -> NoDup r -> 2 <= length r ->
  exists e2id' l c, mfold (ring_edge r) (seq 0 (length r)) (e2id, edges, []) = Ok (e2id', edges ++ l, c) /\
    positional e2id' /\ edges ++ l = map fst e2id' /\ map (way (edges ++ l)) c = map Some (ring r) /\
    forall e, In e l -> exists a b, In (a, b) (ring r) /\ e = edge_key a b.
Proof.
  intros P Ed Nr Lr.
  destruct (mfold_seq (ring_edge r) (fun k st => let '(m, es, c) := st in exists l, es = edges ++ l /\ positional m /\ es = map fst m /\
     map (way es) c = map Some (firstn k (ring r)) /\ forall e, In e l -> exists a b, In (a, b) (ring r) /\ e = edge_key a b) (length r) (e2id, edges, []))
    as ([[m es] c] & E & l & -> & Pm & Em & W & New).
  - exists []. rewrite app_nil_r. repeat split; auto; [apply P|apply P|intros ? []].
  - intros k [[m es] c] Lk (l & -> & Pm & Em & W & New).
    destruct (nth_error_ex r k) as [x Hx]; [auto|]. destruct (nth_error_ex r ((k + 1) mod length r)) as [y Hy]; [apply Nat.mod_upper_bound; lia|].
    assert (Rk : nth_error (ring r) k = Some (x, y)) by (apply ring_nth; auto).
    assert (Nxy : x <> y).
    { intros ->. assert (Q : k = (k + 1) mod length r) by (apply (proj1 (NoDup_nth_error r) Nr); auto; congruence).
      destruct (Nat.eq_dec (k + 1) (length r)) as [Z|Z]; [rewrite Z, Nat.mod_same in Q by lia|rewrite Nat.mod_small in Q by lia]; lia. }
    destruct (ring_edge_ok r k x y m (edges ++ l) c Pm Em Hx Hy Nxy) as (m' & es' & z & E & Pm' & Em' & Wz & D).
    exists (m', es', c ++ [z]). split; auto.
    destruct D as [->| ->].
    + exists l. repeat split; auto; [apply Pm'|apply Pm'|]. rewrite map_app, W. cbn [map]. rewrite Wz, (firstn_snoc _ _ _ Rk), map_app. auto.
    + exists (l ++ [edge_key x y]). rewrite app_assoc. repeat split; auto; [apply Pm'|apply Pm'| |].
      * rewrite map_app, (map_way_app _ _ _ _ W). cbn [map]. rewrite Wz, (firstn_snoc _ _ _ Rk), map_app. auto.
      * intros e I. apply in_app_or in I as [I|[<-|[]]]; auto. exists x, y. split; auto. eapply nth_error_In; eauto.
  - exists m, l, c. repeat split; auto; [apply Pm|apply Pm|]. rewrite W. f_equal. apply firstn_all2. rewrite ring_length. auto.
Qed.

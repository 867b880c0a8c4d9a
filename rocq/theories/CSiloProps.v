(* The C interface to the Silo files. *)
From Coq Require Import String QArith.
From Verif Require Import Base BaseFacts HullModel VoroModel CSiloModel CSiloSpec CSiloProofs.
Local Open Scope nat_scope.

Lemma ok_inj {A} (a b : A) : Ok a = Ok b -> a = b.
Proof. congruence. Qed.

(* C100.  Writing hands over exactly the fields and tags of the caller, each under its name (of two
   with the same name the later one), and the vectors made on the way are all deleted exactly when no
   tag name of a kind of element is there twice. *)
Theorem write_silo_hands_over {P} dim (n e f c : c_args P) :
  dim = 2 \/ dim = 3 -> passed n -> passed e -> passed f -> passed c ->
  exists on oe of oc h, write_silo_with_tags dim n e f c = Ok (on, oe, of, oc, h)
    /\ hands_over n on /\ hands_over e oe /\ hands_over f of /\ hands_over c oc
    /\ length h = nt n + nt e + nt f + nt c
    /\ ((forall p v, nth_error h p <> Some (Some v)) <-> distinct_tags n /\ distinct_tags e /\ distinct_tags f /\ distinct_tags c).
Proof. apply write_ok. Qed.
Print Assumptions write_silo_hands_over.

(* Without tags *)
Theorem write_silo_fields {P} dim (n e f c : c_args P) :
  dim = 2 \/ dim = 3 -> Forall (fun a => nf a <= length (fnames a) /\ nf a <= length (fptrs a)) [n; e; f; c] ->
  exists on oe of oc, write_silo dim n e f c = Ok ((on, []), (oe, []), (of, []), (oc, []), [])
    /\ map_of on (nf n) (fnames n) (nth_error (fptrs n)) /\ map_of oe (nf e) (fnames e) (nth_error (fptrs e))
    /\ map_of of (nf f) (fnames f) (nth_error (fptrs f)) /\ map_of oc (nf c) (fnames c) (nth_error (fptrs c)).
Proof.
  intros D H. inversion H as [|? ? [A1 A2] H1]; subst. inversion H1 as [|? ? [B1 B2] H2]; subst.
  inversion H2 as [|? ? [C1 C2] H3]; subst. inversion H3 as [|? ? [D1 D2] _]; subst.
  destruct (fill_fields_ok n A1 A2) as (f1 & F1 & M1). destruct (fill_fields_ok e B1 B2) as (f2 & F2 & M2).
  destruct (fill_fields_ok f C1 C2) as (f3 & F3 & M3). destruct (fill_fields_ok c D1 D2) as (f4 & F4 & M4).
  exists f1, f2, f3, f4. split; auto. unfold write_silo, write_silo_with_tags.
  change (fill_fields (no_tags n)) with (fill_fields n). change (fill_fields (no_tags e)) with (fill_fields e).
  change (fill_fields (no_tags f)) with (fill_fields f). change (fill_fields (no_tags c)) with (fill_fields c).
  rewrite F1, F2, F3, F4. simpl. destruct D as [-> | ->]; reflexivity.
Qed.
Print Assumptions write_silo_fields.

(* Any other dimension stops the program *)
Theorem write_silo_dimension {P} dim (n e f c : c_args P) : dim <> 2 -> dim <> 3 -> passed n -> passed e -> passed f -> passed c ->
  write_silo_with_tags dim n e f c = Abort.
Proof.
  intros D2 D3 Pn Pe Pf Pc.
  destruct (fill_fields_ok n) as (f1 & F1 & M1); [apply Pn|apply Pn|].
  destruct (fill_fields_ok e) as (f2 & F2 & M2); [apply Pe|apply Pe|].
  destruct (fill_fields_ok f) as (f3 & F3 & M3); [apply Pf|apply Pf|].
  destruct (fill_fields_ok c) as (f4 & F4 & M4); [apply Pc|apply Pc|].
  destruct (fill_filled n [] Pn) as (v1 & t1 & T1 & _). simpl app in *.
  destruct (fill_filled e (map Some v1) Pe) as (v2 & t2 & T2 & _).
  destruct (fill_filled f (map Some v1 ++ map Some v2) Pf) as (v3 & t3 & T3 & _).
  destruct (fill_filled c ((map Some v1 ++ map Some v2) ++ map Some v3) Pc) as (v4 & t4 & T4 & _).
  unfold write_silo_with_tags. rewrite F1, F2, F3, F4. simpl. rewrite T1. simpl. rewrite T2. simpl. rewrite T3. simpl. rewrite T4. simpl.
  replace ((dim =? 2) || (dim =? 3)) with false; auto. symmetry. apply orb_false_iff. rewrite !Nat.eqb_neq. auto.
Qed.
Print Assumptions write_silo_dimension.

Definition none : c_args nat := mkArgs _ 0 [] [] 0 [] [] [].
Definition two_and_three : c_args nat :=
  mkArgs _ 2 ["rho"; "p"]%string [7; 8] 3 ["b"; "a"; "b"]%string [2; 1; 1] [[1; 2; 3]; [4]; [5; 6]]%Z.
Example passed_example : passed two_and_three /\ passed none /\ ~ distinct_tags two_and_three.
Proof.
  split; [|split].
  - repeat split; simpl; auto. intros [|[|[|i]]] n l; simpl; try (intros; lia); intros E1 E2 _; injection E1 as <-; injection E2 as <-; simpl; lia.
  - repeat split; simpl; auto. intros i n l. destruct i; discriminate.
  - unfold distinct_tags. simpl. intro N. inversion N as [|? ? N1]; subst. apply N1. simpl. auto.
Qed.
Example written_example : write_silo_with_tags 2 two_and_three none none none =
  Ok (([("p", 8); ("rho", 7)], [("a", [4]%Z); ("b", [5]%Z)]), ([], []), ([], []), ([], []), [Some [1; 2]%Z; None; None])%string.
Proof. reflexivity. Qed.

(* C101.  Reading: the fields *)
Lemma parse_two fields : 2 <= length fields -> parse_fields fields = UB.
Proof.
  destruct fields as [|[k1 v1] [|[k2 v2] fs]]; simpl; try lia. intros _. unfold parse_fields. reflexivity.
Qed.
(* at most one field: it is given back *)
Theorem read_silo_partial dim found : dim = 2 \/ dim = 3 -> length (f_fields found) <= 1 ->
  exists f, read_silo dim found = Ok f /\ fields_given (f_fields found) f.
Proof.
  intros D L. unfold read_silo, read_silo_with_tags.
  replace ((dim =? 2) || (dim =? 3)) with true by (destruct D as [-> | ->]; reflexivity).
  destruct (f_fields found) as [|[k v] [|? ?]]; simpl in *; try lia; eexists; (split; [reflexivity|repeat split]).
Qed.
Print Assumptions read_silo_partial.
(* two or more fields: always undefined behaviour, whatever was asked for *)
Theorem read_silo_refuted dim found an ae af ac : dim = 2 \/ dim = 3 -> 2 <= length (f_fields found) ->
  read_silo dim found = UB /\ read_silo_with_tags dim found an ae af ac = UB.
Proof.
  intros D L. unfold read_silo, read_silo_with_tags.
  replace ((dim =? 2) || (dim =? 3)) with true by (destruct D as [-> | ->]; reflexivity). simpl.
  rewrite parse_two by auto. auto.
Qed.
Print Assumptions read_silo_refuted.

(* the tags: what is given back are the fields, cut to integers *)
Definition as_tags (fields : cmap (list Q)) : res (cmap (list Z)) :=
  mmap (fun e => do v <- mmap as_int (snd e); Ok (fst e, v)) fields.
Lemma parse_tags_iff fields m : length fields <= 1 ->
  (exists t, parse_tags fields (length m) = Ok t /\ tags_given m t) <-> as_tags fields = Ok m.
Proof.
  destruct fields as [|[k v] [|? ?]]; simpl; try lia; intros _; unfold parse_tags, as_tags; simpl.
  - split.
    + intros (t & E & (E0 & E1 & _)). apply ok_inj in E. subst t. simpl in *. destruct m as [|e m]; auto. discriminate.
    + intro E. apply ok_inj in E. subst m. eexists. split; [reflexivity|]. repeat split.
  - split.
    + intros (t & E & G). destruct m as [|[k' v'] m]; [discriminate|]. simpl in E.
      destruct (mmap as_int v) as [w| | |] eqn:W; simpl in E; try discriminate. apply ok_inj in E. subst t.
      destruct G as (_ & G1 & G2 & G3). simpl in *. injection G1 as -> G1. injection G3 as -> G3.
      destruct m; [reflexivity|discriminate].
    + destruct (mmap as_int v) as [w| | |] eqn:W; simpl; intro E; try discriminate. apply ok_inj in E. subst m. simpl.
      eexists. split; [reflexivity|]. repeat split; simpl. apply mmap_inv in W. rewrite (Forall2_len _ _ _ W). reflexivity.
Qed.

(* The tags asked for are given back exactly in the accidental case that each kind of tags asked for
   agrees with the fields, of which there is at most one *)
Theorem read_tags_iff dim found an ae af ac : dim = 2 \/ dim = 3 ->
  ((exists f tn te tf tc, read_silo_with_tags dim found an ae af ac = Ok (f, tn, te, tf, tc)
      /\ fields_given (f_fields found) f
      /\ given_if an (f_node found) tn /\ given_if ae (f_edge found) te
      /\ given_if af (f_face found) tf /\ given_if ac (f_cell found) tc)
   <-> length (f_fields found) <= 1
       /\ forall ask m, In (ask, m) [(an, f_node found); (ae, f_edge found); (af, f_face found); (ac, f_cell found)] ->
          ask = true -> as_tags (f_fields found) = Ok m).
Proof.
  intro D. split.
  - intros (f & tn & te & tf & tc & E & G & G1 & G2 & G3 & G4).
    assert (L : length (f_fields found) <= 1).
    { destruct (Nat.le_gt_cases (length (f_fields found)) 1) as [L|L]; auto.
      rewrite (proj2 (read_silo_refuted dim found an ae af ac D L)) in E. discriminate. }
    split; auto.
    unfold read_silo_with_tags in E. apply bind_ok in E. destruct E as (? & _ & E). apply bind_ok in E. destruct E as (f' & _ & E).
    apply bind_ok in E. destruct E as (x1 & E1 & E). apply bind_ok in E. destruct E as (x2 & E2 & E).
    apply bind_ok in E. destruct E as (x3 & E3 & E). apply bind_ok in E. destruct E as (x4 & E4 & E).
    apply ok_inj in E. injection E as -> -> -> -> ->.
    assert (X : forall (m : cmap (list Z)) t, (do r <- parse_tags (f_fields found) (length m); Ok (Some r)) = Ok t ->
      given_if true m t -> as_tags (f_fields found) = Ok m).
    { intros m t E (r & -> & T). apply parse_tags_iff; auto. apply bind_ok in E. destruct E as (r' & E' & E). apply ok_inj in E. injection E as ->. eauto. }
    intros ask m [I|[I|[I|[I|[]]]]] ->; injection I as -> <-; eauto.
  - intros (L & A). destruct (read_silo_partial dim found D L) as (f & E & G).
    unfold read_silo in E. apply bind_ok in E. destruct E as ([[[[f' ?] ?] ?] ?] & E & E'). apply ok_inj in E'. subst f'.
    unfold read_silo_with_tags in E. apply bind_ok in E. destruct E as (? & Ea & E). apply bind_ok in E. destruct E as (f' & Ef & E).
    simpl in E. assert (f' = f) by congruence. subst f'.
    assert (X : forall ask m, In (ask, m) [(an, f_node found); (ae, f_edge found); (af, f_face found); (ac, f_cell found)] ->
      exists t, (if ask then do r <- parse_tags (f_fields found) (length m); Ok (Some r) else Ok None) = Ok t /\ given_if ask m t).
    { intros ask m I. destruct ask; [|exists None; split; reflexivity].
      destruct (proj2 (parse_tags_iff (f_fields found) m L) (A _ _ I eq_refl)) as (t & Et & Gt).
      exists (Some t). rewrite Et. split; auto. simpl. eauto. }
    destruct (X an (f_node found)) as (t1 & X1 & Y1); [simpl; auto|]. destruct (X ae (f_edge found)) as (t2 & X2 & Y2); [simpl; auto|].
    destruct (X af (f_face found)) as (t3 & X3 & Y3); [simpl; auto|]. destruct (X ac (f_cell found)) as (t4 & X4 & Y4); [simpl; auto 6|].
    exists f, t1, t2, t3, t4. split; auto. unfold read_silo_with_tags. rewrite Ea. simpl. rewrite Ef. simpl. rewrite X1. simpl. rewrite X2. simpl.
    rewrite X3. simpl. rewrite X4. reflexivity.
Qed.
Print Assumptions read_tags_iff.

(* One field and one tag: the tag comes back with the name and the values of the field.  One field
   and no tags: undefined behaviour.  No fields and one tag: the name of the tag is never written. *)
Theorem read_tags_refuted :
  (exists t, read_silo_with_tags 2 (mkFound [("rho"%string, [7 # 2; 1 # 3]%Q)] [("wall"%string, [4%Z])] [] [] []) true false false false
     = Ok (mkFields 1 [Some "rho"%string] [Some [7 # 2; 1 # 3]%Q], Some t, None, None, None)
     /\ tag_names t = [Some "rho"%string] /\ tag_values t = [Some [3; 0]%Z])
  /\ read_silo_with_tags 2 (mkFound [("rho"%string, [7 # 2; 1 # 3]%Q)] [] [] [] []) true false false false = UB
  /\ (exists t, read_silo_with_tags 2 (mkFound [] [("wall"%string, [4%Z])] [] [] []) true false false false
     = Ok (mkFields 0 [] [], Some t, None, None, None) /\ num_tags t = 1 /\ tag_names t = [None]).
Proof. repeat split; try (eexists; repeat split; vm_compute; reflexivity). Qed.
Print Assumptions read_tags_refuted.

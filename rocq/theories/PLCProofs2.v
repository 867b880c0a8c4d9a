From Verif Require Import Base BaseFacts SerializeModel MeshModel MeshSpec QuantMeshModel PLCModel PLCSpec PLCProofs.
From Coq Require Import Sorted.
Local Open Scope nat_scope.

Lemma Forall2_impl {A B} (R R' : A -> B -> Prop) l l' : (forall a b, R a b -> R' a b) -> Forall2 R l l' -> Forall2 R' l l'.
Proof. intros H. induction 1; constructor; auto. Qed.
Lemma skipn_nth {A} (l : list A) k x : nth_error l k = Some x -> skipn k l = x :: skipn (S k) l.
Proof. revert k. induction l as [|y l IH]; intros [|k] H; try discriminate; cbn; [injection H as ->; auto|]. apply IH in H. rewrite H. auto. Qed.
Lemma node2 {V} (m : mesh V) n : n < length (nodes m) / 2 -> exists x y,
  get (nodes m) (2 * n) = Ok x /\ get (nodes m) (2 * n + 1) = Ok y /\ node_at 2 m n = [x; y].
Proof.
  intros H. assert (L : 2 * n + 1 < length (nodes m)).
  { pose proof (Nat.div_mod (length (nodes m)) 2). lia. }
  destruct (nth_error_ex (nodes m) (2 * n)) as [x Hx]; [lia|]. destruct (nth_error_ex (nodes m) (2 * n + 1)) as [y Hy]; [lia|].
  exists x, y. unfold get. rewrite Hx, Hy. repeat split; auto. unfold node_at.
  rewrite (skipn_nth _ _ _ Hx). replace (S (2 * n)) with (2 * n + 1) by lia. rewrite (skipn_nth _ _ _ Hy). reflexivity.
Qed.
Lemma node3 {V} (m : mesh V) n : n < length (nodes m) / 3 -> exists x y z,
  get (nodes m) (3 * n) = Ok x /\ get (nodes m) (3 * n + 1) = Ok y /\ get (nodes m) (3 * n + 2) = Ok z /\ node_at 3 m n = [x; y; z].
Proof.
  intros H. assert (L : 3 * n + 2 < length (nodes m)).
  { pose proof (Nat.div_mod (length (nodes m)) 3). lia. }
  destruct (nth_error_ex (nodes m) (3 * n)) as [x Hx]; [lia|]. destruct (nth_error_ex (nodes m) (3 * n + 1)) as [y Hy]; [lia|].
  destruct (nth_error_ex (nodes m) (3 * n + 2)) as [z Hz]; [lia|].
  exists x, y, z. unfold get. rewrite Hx, Hy, Hz. repeat split; auto. unfold node_at.
  rewrite (skipn_nth _ _ _ Hx). replace (S (3 * n)) with (3 * n + 1) by lia. rewrite (skipn_nth _ _ _ Hy).
  replace (S (3 * n + 1)) with (3 * n + 2) by lia. rewrite (skipn_nth _ _ _ Hz). reflexivity.
Qed.

(* ------------------------------------------------------------ 2D *)
(* the face ids of a cell are usable *)
Definition good2 {V} (m : mesh V) (z : Z) : Prop :=
  exists a b, nth_error (faces m) (pid z) = Some [a; b] /\ a < length (nodes m) / 2 /\ b < length (nodes m) / 2.
Definition head {V} (m : mesh V) (z : Z) : nat := match walk m z with Some (_, b) => b | None => 0 end.

Lemma walk_good {V} (m : mesh V) z : good2 m z -> exists a b, walk m z = Some (a, b) /\ head m z = b.
Proof. intros (a & b & H & _). unfold head, walk. rewrite H. destruct (0 <=? z)%Z; eauto. Qed.

Definition cell_step {V} (m : mesh V) (n : nat) : nat * list V * list (list Z) -> Z -> res (nat * list V * list (list Z)) :=
  fun '(i, pts, fs) z =>
       do _ <- assert (positiveID z <? Z.of_nat (length (faces m)))%Z;
       do f <- get (faces m) (pid z);
       do _ <- assert (length f =? 2);
       do ip <- (if (z <? 0)%Z then get f 0 else get f 1);
       do _ <- assert (ip <? length (nodes m) / 2);
       do x <- get (nodes m) (2 * ip);
       do y <- get (nodes m) (2 * ip + 1);
       Ok (S i, pts ++ [x; y], fs ++ [[Z.of_nat i; Z.of_nat ((i + 1) mod n)]]).

Lemma cell_fold {V} (m : mesh V) n c : Forall (good2 m) c -> forall i pts fs,
  mfold (cell_step m n) c (i, pts, fs) =
  Ok (i + length c, pts ++ concat (map (fun z => node_at 2 m (head m z)) c),
      fs ++ map (fun k => [Z.of_nat k; Z.of_nat ((k + 1) mod n)]) (seq i (length c))).
Proof.
  induction 1 as [|z c G F IH]; intros i pts fs; cbn [mfold].
  - cbn. rewrite Nat.add_0_r, !app_nil_r. reflexivity.
  - destruct G as (a & b & Hf & La & Lb). unfold cell_step at 1.
    assert (Lz : (positiveID z < Z.of_nat (length (faces m)))%Z).
    { assert (H := nth_error_lt _ _ _ Hf). unfold pid in H. unfold positiveID in *. destruct (Z.leb_spec 0 z); unfold Z.lnot in *; lia. }
    apply Z.ltb_lt in Lz. rewrite Lz. cbn [assert bind]. unfold get at 1. rewrite Hf. cbn [bind length Nat.eqb assert].
    assert (Hd : (if (z <? 0)%Z then get [a; b] 0 else get [a; b] 1) = Ok (head m z) /\ head m z < length (nodes m) / 2).
    { unfold head, walk. rewrite Hf. destruct (Z.ltb_spec z 0), (Z.leb_spec 0 z); try lia; cbn; auto. }
    destruct Hd as [-> Lh]. cbn [bind]. apply Nat.ltb_lt in Lh. rewrite Lh. cbn [assert bind]. apply Nat.ltb_lt in Lh.
    destruct (node2 m _ Lh) as (x & y & -> & -> & Hn). cbn [bind]. rewrite IH. cbn [length map concat seq].
    rewrite Hn, <- !app_assoc. cbn [app]. do 3 f_equal. lia.
Qed.

Lemma cell_plc2_ok {V} (m : mesh V) icell c : mesh_empty m = false -> nth_error (cells m) icell = Some c -> 3 <= length c ->
  Forall (good2 m) c ->
  (forall k z z', nth_error c k = Some z -> nth_error c ((k + 1) mod length c) = Some z' ->
     exists a b d, walk m z = Some (a, b) /\ walk m z' = Some (b, d)) ->
  exists r, cell_plc2 m icell = Ok r /\ CellPolygon m c r.
Proof.
  intros E Hc L G Cl. unfold cell_plc2. rewrite E. cbn [negb assert bind].
  assert (Li := nth_error_lt _ _ _ Hc). apply Nat.ltb_lt in Li. rewrite Li. cbn [assert bind].
  unfold get at 1. rewrite Hc. cbn [bind]. set (n := length c) in *. apply Nat.leb_le in L. rewrite L. cbn [assert bind]. apply Nat.leb_le in L.
  match goal with |- context [mfold ?f c ?st] => change (mfold f c st) with (mfold (cell_step m n) c st) end.
  rewrite (cell_fold m n c G). cbn [bind app].
  set (pts := concat _). assert (Fl : Forall (fun l => length l = 2) (map (fun z => node_at 2 m (head m z)) c)).
  { apply Forall_forall. intros l H. apply in_map_iff in H as (z & <- & Iz). rewrite Forall_forall in G.
    destruct (G z Iz) as (a & b & Hf & La & Lb). assert (Lh : head m z < length (nodes m) / 2).
    { unfold head, walk. rewrite Hf. destruct (0 <=? z)%Z; auto. }
    destruct (node2 m _ Lh) as (x & y & _ & _ & ->). reflexivity. }
  assert (Lp : length pts = 2 * n).
  { unfold pts, n. clear - Fl. induction c as [|z c IH]; cbn [map concat length] in *; auto. inversion Fl; subst. rewrite app_length, H1, IH by auto. lia. }
  rewrite Lp, (Nat.mul_comm 2), Nat.div_mul, Nat.eqb_refl by lia. cbn [assert bind].
  set (r := mkRPLC _ _ _). exists r. split; auto. constructor; cbn [r rfacets rpoints rholes]; auto.
  - rewrite map_length, seq_length. auto.
  - fold n. intros k z Lk Hz. destruct (nth_error_ex c k Lk) as [z0 Hz0].
    destruct (Cl k z0 z Hz0 Hz) as (a & b & d & W0 & W). exists b, d, k, ((k + 1) mod n).
    split; auto. split.
    { apply (map_nth_error (fun k => [Z.of_nat k; Z.of_nat ((k + 1) mod n)]) k (seq 0 n)).
      clear - Lk. assert (X : forall n o k, k < n -> nth_error (seq o n) k = Some (o + k)).
      { clear. induction n as [|n IH]; intros o [|k] H; try lia; cbn; [f_equal; lia|]. rewrite IH by lia. f_equal. lia. }
      rewrite X by auto. reflexivity. }
    split; auto. split; [apply Nat.mod_upper_bound; lia|].
    split; (apply vertex_concat; [auto|]).
    + replace b with (head m z0) by (unfold head; rewrite W0; auto). apply (map_nth_error (fun z => node_at 2 m (head m z)) k c); auto.
    + replace d with (head m z) by (unfold head; rewrite W; auto). apply (map_nth_error (fun z => node_at 2 m (head m z)) _ c); auto.
Qed.

(* ------------------------------------------------------------ 3D *)
Definition numbered (keep : list nat) : list (nat * nat) := combine keep (seq 0 (length keep)).
Lemma combine_snoc {A B} (l : list A) (l' : list B) a b : length l = length l' -> combine (l ++ [a]) (l' ++ [b]) = combine l l' ++ [(a, b)].
Proof. revert l'. induction l as [|x l IH]; intros [|y l'] H; try discriminate; cbn; auto. rewrite IH by (cbn in H; lia). auto. Qed.
Lemma numbered_snoc keep a : numbered (keep ++ [a]) = numbered keep ++ [(a, length keep)].
Proof.
  unfold numbered. rewrite app_length. cbn [length]. rewrite Nat.add_1_r, seq_S. cbn [Nat.add].
  apply combine_snoc. rewrite seq_length. auto.
Qed.
Lemma nlookup_some keep a k : nlookup a (numbered keep) = Some k -> nth_error keep k = Some a.
Proof.
  assert (G : forall keep o k, nlookup a (combine keep (seq o (length keep))) = Some k -> o <= k /\ nth_error keep (k - o) = Some a).
  { clear. induction keep as [|x keep IH]; intros o k H; [discriminate|]. cbn in H. destruct (Nat.eqb_spec x a) as [->|N].
    - injection H as <-. rewrite Nat.sub_diag. auto.
    - apply IH in H as [L H]. split; [lia|]. replace (k - o) with (S (k - S o)) by lia. auto. }
  intros H. apply G in H as [_ H]. rewrite Nat.sub_0_r in H. auto.
Qed.
Lemma nlookup_none keep a : nlookup a (numbered keep) = None -> ~ In a keep.
Proof.
  unfold numbered. generalize 0. induction keep as [|x keep IH]; intros o H; cbn in *; auto.
  destruct (Nat.eqb_spec x a); [discriminate|]. intros [|I]; [auto|]. eapply IH; eauto.
Qed.
Lemma nlookup_app_none m m' a : nlookup a m = None -> nlookup a (m ++ m') = nlookup a m'.
Proof. induction m as [|[k v] m IH]; cbn; auto. destruct (k =? a); [discriminate|auto]. Qed.

Section Cell3.
  Context {V : Type} (m : mesh V).
  Definition ok3 (n : nat) : Prop := n < length (nodes m) / 3.
  Definition pts_of (keep : list nat) : list V := concat (map (node_at 3 m) keep).
  Lemma ok3_len n : ok3 n -> length (node_at 3 m n) = 3.
  Proof. intros H. destruct (node3 m n H) as (x & y & z & _ & _ & _ & ->). auto. Qed.
  Lemma all_len keep : Forall ok3 keep -> Forall (fun l => length l = 3) (map (node_at 3 m) keep).
  Proof. intros F. apply Forall_forall. intros l H. apply in_map_iff in H as (n & <- & I). rewrite Forall_forall in F. apply ok3_len. auto. Qed.
  Lemma pts_len keep : Forall ok3 keep -> length (pts_of keep) = length keep * 3.
  Proof. induction 1; unfold pts_of in *; cbn [map concat length]; auto. rewrite app_length, IHForall, ok3_len by auto. lia. Qed.

  (* keep' extends keep *)
  Definition extends (keep keep' : list nat) : Prop := exists ex, keep' = keep ++ ex.
  Lemma ext_nth keep keep' k n : extends keep keep' -> nth_error keep k = Some n -> nth_error keep' k = Some n.
  Proof. intros [ex ->] H. rewrite nth_error_app1; auto. eapply nth_error_lt; eauto. Qed.
  Lemma ext_refl k : extends k k. Proof. exists []. rewrite app_nil_r. auto. Qed.
  Lemma ext_trans a b c : extends a b -> extends b c -> extends a c.
  Proof. intros [x ->] [y ->]. exists (x ++ y). rewrite app_assoc. auto. Qed.
  Definition row_of (keep : list nat) := Forall2 (fun n x => (0 <= x)%Z /\ nth_error keep (Z.to_nat x) = Some n).

  Lemma node_step keep row n : NoDup keep -> Forall ok3 keep -> ok3 n ->
    exists keep' k, cell_node3 m (numbered keep, pts_of keep, row) n = Ok (numbered keep', pts_of keep', row ++ [Z.of_nat k]) /\
      nth_error keep' k = Some n /\ NoDup keep' /\ Forall ok3 keep' /\ extends keep keep' /\
      forall x, In x keep' <-> In x keep \/ x = n.
  Proof.
    intros N F On. unfold cell_node3. pose proof On as On'. apply Nat.ltb_lt in On'. unfold ok3 in On. rewrite On'. cbn [assert bind].
    destruct (nlookup n (numbered keep)) as [k|] eqn:E.
    - exists keep, k. cbn [bind]. rewrite E. split; auto. pose proof (nlookup_some _ _ _ E) as Hk. split; auto. split; auto. split; auto.
      split; [apply ext_refl|]. intros x. split; auto. intros [I | ->]; auto. eapply nth_error_In; eauto.
    - destruct (node3 m n On) as (x & y & z & -> & -> & -> & Hn). cbn [bind].
      exists (keep ++ [n]), (length keep). rewrite pts_len, Nat.div_mul by (auto; lia).
      rewrite nlookup_app_none by auto. cbn. rewrite Nat.eqb_refl. split.
      { unfold numbered at 2. fold (numbered (keep ++ [n])). rewrite numbered_snoc. unfold pts_of at 2. rewrite map_app, concat_app. cbn [map concat]. rewrite Hn. rewrite app_nil_r; reflexivity. }
      split; [rewrite nth_error_app2, Nat.sub_diag by lia; auto|]. split.
      { apply nlookup_none in E. clear - N E. induction N as [|a keep Ha N IH]; cbn; [repeat constructor; auto|].
        constructor; [|apply IH; intros I; apply E; right; auto]. intros I. apply in_app_or in I as [I|[<-|[]]]; auto. apply E. left; auto. }
      split; [apply Forall_app; split; auto|]. split; [exists [n]; auto|].
      intros w. rewrite in_app_iff. cbn. intuition.
  Qed.

  Lemma row_step f keep row done : NoDup keep -> Forall ok3 keep -> Forall ok3 f -> row_of keep done row ->
    exists keep' row', mfold (cell_node3 m) f (numbered keep, pts_of keep, row) = Ok (numbered keep', pts_of keep', row') /\
      row_of keep' (done ++ f) row' /\ NoDup keep' /\ Forall ok3 keep' /\ extends keep keep' /\
      (forall x, In x keep' <-> In x keep \/ In x f) /\ length row' = length row + length f.
  Proof.
    intros N F Ff. revert keep row done N F. induction Ff as [|n f On Ff IH]; intros keep row done N F R; cbn [mfold].
    - exists keep, row. rewrite app_nil_r. repeat split; auto; [apply ext_refl|intros [|[]]; auto].
    - destruct (node_step keep row n N F On) as (k1 & k & -> & Hk & N1 & F1 & X1 & I1). cbn [bind].
      destruct (IH k1 (row ++ [Z.of_nat k]) (done ++ [n]) N1 F1) as (k2 & row2 & -> & R2 & N2 & F2 & X2 & I2 & L2).
      { apply Forall2_app; [|constructor; [|constructor]; split; [lia|rewrite Nat2Z.id; auto]].
        eapply Forall2_impl; [|exact R]. cbn. intros a x [Hx Hn]. split; auto. eapply ext_nth; eauto. }
      exists k2, row2. rewrite <- app_assoc in R2. split; auto. split; auto. split; auto. split; auto.
      split; [eapply ext_trans; eauto|]. split.
      + intros x. rewrite I2, I1. cbn. intuition.
      + rewrite L2, app_length. cbn. lia.
  Qed.

  Definition face_step : list (nat * nat) * list V * list (list Z) -> Z -> res (list (nat * nat) * list V * list (list Z)) :=
    fun '(o2n, pts, fs) z =>
       do f <- get (faces m) (pid z);
       do r <- mfold (cell_node3 m) (if (z <? 0)%Z then rev f else f) (o2n, pts, []);
       let '(o2n, pts, row) := r in
       do _ <- assert (length row =? length f);
       Ok (o2n, pts, fs ++ [row]).
  Definition facets_of (keep : list nat) := Forall2 (fun z row => exists f, nth_error (faces m) (pid z) = Some f /\
      row_of keep (if (0 <=? z)%Z then f else rev f) row).

  Lemma faces_step c keep fs done : NoDup keep -> Forall ok3 keep ->
    Forall (fun z => exists f, nth_error (faces m) (pid z) = Some f /\ Forall ok3 f) c -> facets_of keep done fs ->
    exists keep' fs', mfold face_step c (numbered keep, pts_of keep, fs) = Ok (numbered keep', pts_of keep', fs') /\
      facets_of keep' (done ++ c) fs' /\ NoDup keep' /\ Forall ok3 keep' /\ extends keep keep' /\
      (forall x, In x keep' <-> In x keep \/ exists z f, In z c /\ nth_error (faces m) (pid z) = Some f /\ In x f).
  Proof.
    intros N F Fc. revert keep fs done N F. induction Fc as [|z c (f & Hf & Off) Fc IH]; intros keep fs done N F R; cbn [mfold].
    - exists keep, fs. rewrite app_nil_r. repeat split; auto; [apply ext_refl|intros [|(? & ? & [] & _)]; auto].
    - unfold face_step at 1. unfold get at 1. rewrite Hf. cbn [bind]. set (f' := if (z <? 0)%Z then rev f else f).
      assert (Off' : Forall ok3 f').
      { unfold f'. destruct (z <? 0)%Z; auto. apply Forall_rev. auto. }
      assert (If : forall x, In x f' <-> In x f) by (intros x; unfold f'; destruct (z <? 0)%Z; [symmetry; apply in_rev|tauto]).
      assert (Lf : length f' = length f) by (unfold f'; destruct (z <? 0)%Z; auto; apply rev_length).
      destruct (row_step f' keep [] [] N F Off') as (k1 & row & -> & R1 & N1 & F1 & X1 & I1 & L1); [constructor|].
      cbn [bind]. rewrite L1, Lf. cbn [length Nat.add]. rewrite Nat.eqb_refl. cbn [assert bind].
      destruct (IH k1 (fs ++ [row]) (done ++ [z]) N1 F1) as (k2 & fs2 & -> & R2 & N2 & F2 & X2 & I2).
      { apply Forall2_app.
        - eapply Forall2_impl; [|exact R]. cbn. intros y r (g & Hg & Rg). exists g. split; auto.
          eapply Forall2_impl; [|exact Rg]. cbn. intros a x [Hx Hn]. split; auto. eapply ext_nth; eauto.
        - constructor; [|constructor]. exists f. split; auto. cbn [app] in R1. unfold f' in R1.
          destruct (Z.ltb_spec z 0), (Z.leb_spec 0 z); try lia; auto. }
      exists k2, fs2. rewrite <- app_assoc in R2. split; auto. split; auto. split; auto. split; auto.
      split; [eapply ext_trans; eauto|]. intros x. rewrite I2, I1, If. split.
      + intros [[|I]|(y & g & Iy & Hg & Ix)]; auto; right; [exists z, f|exists y, g]; cbn; auto.
      + intros [|(y & g & [<-|Iy] & Hg & Ix)]; auto; [|right; eauto].
        rewrite Hf in Hg. injection Hg as <-. auto.
  Qed.

  Lemma cell_plc3_ok icell c : nth_error (cells m) icell = Some c ->
    (forall z, In z c -> exists f, nth_error (faces m) (pid z) = Some f /\ forall n, In n f -> ok3 n) ->
    exists r keep, cell_plc3 m icell = Ok r /\ CellPolyhedron m c r keep.
  Proof.
    intros Hc B. unfold cell_plc3. assert (Li := nth_error_lt _ _ _ Hc). apply Nat.ltb_lt in Li. rewrite Li. cbn [assert bind].
    unfold get at 1. rewrite Hc. cbn [bind].
    match goal with |- context [mfold ?f c ?st] => change (mfold f c st) with (mfold face_step c (numbered [], pts_of [], [])) end.
    destruct (faces_step c [] [] [] (NoDup_nil _) (Forall_nil _)) as (keep & fs & -> & R & N & F & _ & I); [|constructor|].
    { apply Forall_forall. intros z Iz. destruct (B z Iz) as (f & Hf & Hn). exists f. split; auto. apply Forall_forall. auto. }
    cbn [app bind] in *. rewrite <- (Forall2_len _ _ _ R), Nat.eqb_refl. cbn [assert bind].
    set (r := mkRPLC _ _ _). exists r, keep. split; auto. constructor; auto.
    - intros n. rewrite I. cbn. intuition.
    - eapply Forall2_impl; [|exact R]. intros z row (f & Hf & Rf). exists f. split; auto.
      eapply Forall2_impl; [|exact Rf]. intros n x [Hx Hn]. split; auto. split; auto.
      apply vertex_concat; [apply all_len; auto|]. apply map_nth_error. auto.
  Qed.
End Cell3.

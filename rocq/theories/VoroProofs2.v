(* The nodes of the mesh, and the nodes of a face. *)
From Verif Require Import Base BaseFacts PLCSpec MeshModel MeshSpec Plane HullModel VoroModel VoroSpec VoroProofs.
From Coq Require Import Lia QArith Qround Lqa.
Local Open Scope nat_scope.

Lemma ipt_eqb_iff a b : ipt_eqb a b = true <-> a = b.
Proof.
  destruct a as [[x y] z], b as [[u v] w]. unfold ipt_eqb. rewrite !andb_true_iff, !Z.eqb_eq. split.
  - intros [[-> ->] ->]. reflexivity.
  - intros E. injection E. auto.
Qed.
Lemma number_some ns : forall p i, number ns p = Some i -> nth_error ns i = Some p.
Proof.
  induction ns as [|q t IH]; intros p i H; [discriminate|]. cbn in H. destruct (ipt_eqb q p) eqn:E.
  - apply ipt_eqb_iff in E. injection H as <-. subst. reflexivity.
  - destruct (number t p) eqn:N; [|discriminate]. injection H as <-. cbn. auto.
Qed.
Lemma number_none ns : forall p, number ns p = None <-> ~ In p ns.
Proof.
  induction ns as [|q t IH]; intros p; cbn; [tauto|]. destruct (ipt_eqb q p) eqn:E.
  - apply ipt_eqb_iff in E. split; [discriminate | intros H; exfalso; apply H; auto].
  - specialize (IH p). assert (q <> p) by (intros ->; rewrite (proj2 (ipt_eqb_iff p p) eq_refl) in E; discriminate).
    destruct (number t p); cbn; split; try discriminate; try tauto. intros H'. exfalso. assert (~ In p t) by tauto. apply IH in H0. discriminate.
Qed.
Lemma number_app ns r p i : number ns p = Some i -> number (ns ++ r) p = Some i.
Proof.
  revert i. induction ns as [|q t IH]; intros i H; [discriminate|]. cbn in *. destruct (ipt_eqb q p); [exact H|].
  destruct (number t p) eqn:N; [|discriminate]. rewrite (IH _ eq_refl). exact H.
Qed.
Lemma number_last ns p : ~ In p ns -> number (ns ++ [p]) p = Some (length ns).
Proof.
  induction ns as [|q t IH]; intros H; cbn. { rewrite (proj2 (ipt_eqb_iff p p) eq_refl). reflexivity. }
  destruct (ipt_eqb q p) eqn:E; [apply ipt_eqb_iff in E; subst; exfalso; apply H; left; reflexivity|].
  rewrite IH by (intros I; apply H; right; exact I). reflexivity.
Qed.

Lemma below_near x y : In y (below x) -> (y = x \/ y = x - 1)%Z.
Proof. unfold below. destruct (0 <? x)%Z; cbn; intuition lia. Qed.
Lemma below_self x : In x (below x).
Proof. unfold below. destruct (0 <? x)%Z; cbn; auto. Qed.
Lemma tries_near p t : In t (tries p) -> apart t p -> t = p.
Proof.
  destruct p as [[x y] z]. unfold tries. intros H [A | A]; [exact A|]. exfalso.
  apply in_flat_map in H as (iz & Iz & H). apply in_flat_map in H as (iy & Iy & H). apply in_map_iff in H as (ix & <- & Ix).
  apply below_near in Ix, Iy, Iz. lia.
Qed.
Lemma tries_self p : In p (tries p).
Proof.
  destruct p as [[x y] z]. unfold tries. apply in_flat_map. exists z. split; [apply below_self|]. apply in_flat_map. exists y. split; [apply below_self|].
  apply in_map_iff. exists x. split; [reflexivity | apply below_self].
Qed.
Lemma first_known_is ns p ps : (forall t, In t ps -> t = p \/ number ns t = None) -> In p ps -> first_known ns ps = number ns p.
Proof.
  intros H I.
  assert (A : first_known ns ps = None \/ first_known ns ps = number ns p).
  { clear I. induction ps as [|t r IH]; [left; reflexivity|]. cbn. destruct (H t (or_introl eq_refl)) as [-> | N].
    - destruct (number ns p); [right; reflexivity|]. apply IH. intros s S. apply H. right. exact S.
    - rewrite N. apply IH. intros s S. apply H. right. exact S. }
  destruct A as [A | A]; [|exact A]. rewrite A. clear H. induction ps as [|t r IH]; [destruct I|]. cbn in A.
  destruct (number ns t) eqn:N; [discriminate|]. destruct I as [-> | I]; [auto | apply IH; auto].
Qed.

Definition grow (ns : list ipt) (p : ipt) : list ipt := match number ns p with Some _ => ns | None => ns ++ [p] end.
Definition small (p : ipt) : Prop := let '(x, y, z) := p in (x < 2 ^ 31 - 1 /\ y < 2 ^ 31 - 1 /\ z < 2 ^ 31 - 1)%Z.
Lemma add_vertex_ok ns p : small p -> (forall q, In q ns -> apart q p) -> exists j, add_vertex ns p = Ok (grow ns p, j) /\ number (grow ns p) p = Some j.
Proof.
  intros S A.
  assert (F : first_known ns (tries p) = number ns p).
  { apply first_known_is; [|apply tries_self]. intros t T. destruct (number ns t) eqn:N; [left | right; reflexivity].
    apply tries_near; [exact T | apply A]. apply nth_error_In with n. apply number_some. exact N. }
  unfold add_vertex, grow. destruct p as [[x y] z]. unfold small in S.
  rewrite !(proj2 (Z.eqb_neq _ _)) by lia. cbn [orb]. rewrite F. destruct (number ns (x, y, z)) as [j|] eqn:N.
  - exists j. rewrite N. auto.
  - exists (length ns). split; [reflexivity|]. apply number_last. apply number_none. exact N.
Qed.
Lemma grow_in ns p q : In q (grow ns p) <-> In q ns \/ q = p.
Proof.
  unfold grow. destruct (number ns p) as [i|] eqn:N.
  - split; [auto|]. intros [H | ->]; [exact H|]. apply nth_error_In with i. apply number_some. exact N.
  - rewrite in_app_iff. cbn. intuition.
Qed.
Lemma grow_prefix ns p : exists r, grow ns p = ns ++ r.
Proof. unfold grow. destruct (number ns p); [exists []; rewrite app_nil_r | exists [p]]; reflexivity. Qed.
Lemma nodup_snoc {A} (l : list A) x : NoDup l -> ~ In x l -> NoDup (l ++ [x]).
Proof.
  intros N H. induction l as [|a t IH]; cbn; [constructor; [intros [] | constructor]|]. inversion N as [|? ? N1 N2]; subst.
  constructor. { rewrite in_app_iff. cbn. intros [I | [-> | []]]; [auto | apply H; left; reflexivity]. } apply IH; [exact N2 | intros I; apply H; right; exact I].
Qed.
Lemma grow_nodup ns p : NoDup ns -> NoDup (grow ns p).
Proof. intros H. unfold grow. destruct (number ns p) eqn:N; [exact H | apply nodup_snoc; [exact H | apply number_none; exact N]]. Qed.
Lemma grows_prefix vs : forall ns, exists r, fold_left grow vs ns = ns ++ r.
Proof.
  induction vs as [|p t IH]; intros ns; cbn; [exists []; rewrite app_nil_r; reflexivity|].
  destruct (IH (grow ns p)) as (r & E), (grow_prefix ns p) as (r' & E'). rewrite E, E'. exists (r' ++ r). rewrite app_assoc. reflexivity.
Qed.
Lemma grows_in vs : forall ns q, In q (fold_left grow vs ns) <-> In q ns \/ In q vs.
Proof. induction vs as [|p t IH]; intros ns q; cbn; [tauto|]. rewrite IH, grow_in. intuition. Qed.
Lemma grows_nodup vs : forall ns, NoDup ns -> NoDup (fold_left grow vs ns).
Proof. induction vs as [|p t IH]; intros ns H; cbn; [exact H | apply IH, grow_nodup, H]. Qed.

Lemma update_ok vs : forall ns, Forall small vs -> (forall p q, In p ns \/ In p vs -> In q vs -> apart p q) ->
  exists ids, updateMeshVertices ns vs = Ok (fold_left grow vs ns, ids) /\ Forall2 (fun v i => nth_error (fold_left grow vs ns) i = Some v) vs ids.
Proof.
  unfold updateMeshVertices. intros ns0 S0 A0.
  enough (G : forall ns acc, Forall small vs -> (forall p q, In p ns \/ In p vs -> In q vs -> apart p q) ->
     exists ids, mfold (fun '(ns, ids) p => do (ns, j) <- add_vertex ns p; Ok (ns, ids ++ [j])) vs (ns, acc) = Ok (fold_left grow vs ns, acc ++ ids) /\
       Forall2 (fun v i => nth_error (fold_left grow vs ns) i = Some v) vs ids) by (apply (G ns0 []); assumption).
  clear ns0 S0 A0. induction vs as [|v t IH]; intros ns acc S A; cbn [mfold fold_left].
  - exists []. rewrite app_nil_r. auto.
  - inversion S as [|? ? S1 S2]; subst. destruct (add_vertex_ok ns v S1) as (j & E & N); [intros q Q; apply A; [left; exact Q | left; reflexivity]|].
    rewrite E. cbn [bind]. destruct (IH (grow ns v) (acc ++ [j]) S2) as (ids & M & F).
    { intros p q [P | P] Q; apply A; cbn; auto. apply grow_in in P as [P | ->]; auto. }
    rewrite M. exists (j :: ids). split; [rewrite <- app_assoc; reflexivity|]. constructor; [|exact F].
    destruct (grows_prefix t (grow ns v)) as (r & R). rewrite R. apply number_some, number_app, N.
Qed.

(* rounding *)
Lemma snap_in q : in_range q -> as_int (q + (1 # 2)) = Ok (Qfloor (q + (1 # 2))) /\ (Qfloor (q + (1 # 2)) < 2 ^ 31 - 1)%Z.
Proof.
  intros [A B]. unfold as_int, trunc. rewrite (proj2 (Qle_bool_iff _ _) A).
  assert (L : (0 <= Qfloor (q + (1 # 2)))%Z) by (change 0%Z with (Qfloor 0); apply Qfloor_resp_le; exact A).
  assert (U : (Qfloor (q + (1 # 2)) < 2 ^ 31 - 1)%Z).
  { rewrite Zlt_Qlt. apply Qle_lt_trans with (q + (1 # 2))%Q; [apply Qfloor_le | exact B]. }
  split; [|exact U]. rewrite (proj2 (Z.leb_le _ _)), (proj2 (Z.ltb_lt _ _)); [reflexivity | lia | lia].
Qed.
Lemma in_range_eq a b : (a == b)%Q -> in_range a -> in_range b.
Proof. unfold in_range. intros E [A B]. rewrite <- E. auto. Qed.
Lemma Qfloor_eq a b : (a == b)%Q -> Qfloor a = Qfloor b.
Proof. intros E. rewrite E. reflexivity. Qed.
Lemma grid_ok dx c q : in_range (X3 (placed c q) / dx) -> in_range (Y3 (placed c q) / dx) -> in_range (Z3 (placed c q) / dx) ->
  grid_point dx (add3 (add3 (vc_centroid c) (vc_pos c)) (half3 q)) = Ok (snap dx (placed c q)) /\ small (snap dx (placed c q)).
Proof.
  intros A B C. unfold grid_point.
  set (u := add3 (add3 (vc_centroid c) (vc_pos c)) (half3 q)).
  assert (EX : (X3 (placed c q) / dx == X3 u / dx)%Q) by (unfold u, placed, add3, half3, X3, Y3, Z3; cbn; unfold Qdiv; ring).
  assert (EY : (Y3 (placed c q) / dx == Y3 u / dx)%Q) by (unfold u, placed, add3, half3, X3, Y3, Z3; cbn; unfold Qdiv; ring).
  assert (EZ : (Z3 (placed c q) / dx == Z3 u / dx)%Q) by (unfold u, placed, add3, half3, X3, Y3, Z3; cbn; unfold Qdiv; ring).
  destruct (snap_in _ (in_range_eq _ _ EX A)) as [X1 X2], (snap_in _ (in_range_eq _ _ EY B)) as [Y1 Y2], (snap_in _ (in_range_eq _ _ EZ C)) as [Z1 Z2].
  rewrite X1, Y1, Z1. cbn [bind]. unfold snap, small.
  assert (FX : Qfloor (X3 u / dx + (1 # 2)) = Qfloor (X3 (placed c q) / dx + (1 # 2))) by (apply Qfloor_eq; rewrite EX; reflexivity).
  assert (FY : Qfloor (Y3 u / dx + (1 # 2)) = Qfloor (Y3 (placed c q) / dx + (1 # 2))) by (apply Qfloor_eq; rewrite EY; reflexivity).
  assert (FZ : Qfloor (Z3 u / dx + (1 # 2)) = Qfloor (Z3 (placed c q) / dx + (1 # 2))) by (apply Qfloor_eq; rewrite EZ; reflexivity).
  rewrite FX, FY, FZ in *. auto.
Qed.

(* the nodes of a face *)
Lemma once_ext l : forall s s', sameset s s' -> once s l = once s' l.
Proof.
  induction l as [|p t IH]; intros s s' E; cbn; [reflexivity|].
  destruct (in_dec ipt_dec p s) as [H|H], (in_dec ipt_dec p s') as [H'|H']; try (apply E in H; contradiction); try (apply E in H'; contradiction).
  - apply IH. exact E.
  - f_equal. apply IH. intros x. cbn. rewrite (E x). tauto.
Qed.
Lemma once_in l : forall s x, In x (once s l) <-> In x l /\ ~ In x s.
Proof.
  induction l as [|p t IH]; intros s x; cbn; [tauto|]. destruct (in_dec ipt_dec p s) as [H|H].
  - rewrite IH. split; [tauto|]. intros [[-> | A] B]; tauto.
  - cbn. rewrite IH. cbn. destruct (ipt_dec p x) as [-> | N]; split; try tauto.
Qed.
Lemma once_nodup l : forall s, NoDup (once s l).
Proof.
  induction l as [|p t IH]; intros s; cbn; [constructor|]. destruct (in_dec ipt_dec p s); [apply IH|]. constructor; [|apply IH].
  rewrite once_in. cbn. tauto.
Qed.
Lemma once_len s l : length (once s l) <= length l.
Proof.
  revert s. induction l as [|p t IH]; intros s; cbn; [lia|]. destruct (in_dec ipt_dec p s); cbn; [specialize (IH s) | specialize (IH (p :: s))]; lia.
Qed.
Definition at_ids (ns : list ipt) := Forall2 (fun (i : nat) (p : ipt) => nth_error ns i = Some p).
Lemma at_in ns a ps i : at_ids ns a ps -> In i a -> exists p, nth_error ns i = Some p /\ In p ps.
Proof. intros F. induction F as [|j p a' ps' H F IH]; intros I; [destruct I|]; destruct I as [-> | I]; [exists p; cbn; auto|]. destruct (IH I) as (q & A & B). exists q. cbn. auto. Qed.
Lemma at_out ns a ps p : at_ids ns a ps -> In p ps -> exists i, In i a /\ nth_error ns i = Some p.
Proof. intros F. induction F as [|j q a' ps' H F IH]; intros I; [destruct I|]; destruct I as [-> | I]; [exists j; cbn; auto|]. destruct (IH I) as (i & A & B). exists i. cbn. auto. Qed.
Lemma at_grow ns r a ps : at_ids ns a ps -> at_ids (ns ++ r) a ps.
Proof.
  intros F. induction F as [|j p a' ps' H F IH]; constructor; [|exact IH].
  rewrite nth_error_app1; [exact H | apply nth_error_lt with p; exact H].
Qed.
Lemma nth_error_inj ns i j (p : ipt) : NoDup ns -> nth_error ns i = Some p -> nth_error ns j = Some p -> i = j.
Proof. intros N A B. apply (proj1 (NoDup_nth_error ns) N); [apply nth_error_lt with p; exact A | congruence]. Qed.
Lemma memn_at ns a ps i p : NoDup ns -> at_ids ns a ps -> nth_error ns i = Some p -> (memn i a = true <-> In p ps).
Proof.
  intros N F H. rewrite memn_in. split; intros I.
  - destruct (at_in _ _ _ _ F I) as (q & A & B). rewrite H in A. injection A as <-. exact B.
  - destruct (at_out _ _ _ _ F I) as (j & A & B). rewrite (nth_error_inj ns i j p N H B). exact A.
Qed.
Lemma Forall2_nth_err {A B} (R : A -> B -> Prop) l l' : Forall2 R l l' -> forall k a, nth_error l k = Some a -> exists b, nth_error l' k = Some b /\ R a b.
Proof. intros F. induction F as [|x y l l' H F IH]; intros [|k] a E; cbn in E; try discriminate; [injection E as <-; exists y; auto | apply IH; exact E]. Qed.
Lemma face_nodes_ok ns sp ids f : NoDup ns -> Forall2 (fun v i => nth_error ns i = Some v) sp ids -> (forall k, In k f -> k < length sp) ->
  3 <= length (once [] (map (fun k => nth k sp (0, 0, 0)%Z) f)) ->
  exists fn, face_nodes ids f = Ok fn /\ at_ids ns fn (once [] (map (fun k => nth k sp (0, 0, 0)%Z) f)).
Proof.
  intros N F K L. unfold face_nodes.
  pose proof (once_len [] (map (fun k => nth k sp (0, 0, 0)%Z) f)) as LL. rewrite map_length in LL.
  rewrite (proj2 (Nat.leb_le 3 (length f))) by lia. cbn [assert bind].
  assert (LI : length sp = length ids) by (clear - F; induction F; cbn; auto).
  enough (G : forall acc ps, at_ids ns acc ps -> exists fn, mfold (fun acc k => do _ <- assert (k <? length ids); do j <- get ids k; Ok (if memn j acc then acc else acc ++ [j])) f acc = Ok fn /\
     at_ids ns fn (ps ++ once ps (map (fun k => nth k sp (0, 0, 0)%Z) f))).
  { destruct (G [] [] ltac:(constructor)) as (fn & E & A). rewrite E. cbn [bind]. cbn [app] in A. exists fn.
    assert (length fn = length (once [] (map (fun k => nth k sp (0, 0, 0)%Z) f))) as LF by (clear - A; induction A; cbn; auto).
    rewrite (proj2 (Nat.leb_le 3 (length fn))) by lia. cbn [assert bind]. auto. }
  clear L LL. induction f as [|k t IH]; intros acc ps A; cbn [mfold map once].
  - exists acc. rewrite app_nil_r. auto.
  - assert (LK : k < length sp) by (apply K; left; reflexivity).
    rewrite (proj2 (Nat.ltb_lt k (length ids))) by lia. cbn [assert bind].
    destruct (nth_error sp k) as [p|] eqn:P; [|apply nth_error_None in P; lia].
    destruct (Forall2_nth_err _ _ _ F _ _ P) as (j & J & NJ). rewrite (proj2 (get_ok _ _ _) J). cbn [bind].
    rewrite (nth_error_nth _ _ (0, 0, 0)%Z P). pose proof (memn_at ns acc ps j p N A NJ) as M.
    assert (K' : forall k, In k t -> k < length sp) by (intros k' H; apply K; right; exact H).
    destruct (in_dec ipt_dec p ps) as [I|I].
    + rewrite (proj2 M I). apply IH; assumption.
    + destruct (memn j acc) eqn:Q; [exfalso; apply I, M; reflexivity|].
      destruct (IH K' (acc ++ [j]) (ps ++ [p])) as (fn & E & G). { apply Forall2_app; [exact A | constructor; [exact NJ | constructor]]. }
      exists fn. split; [exact E|]. rewrite <- app_assoc in G. cbn [app] in G.
      rewrite (once_ext _ (p :: ps) (ps ++ [p])); [exact G|]. intros x. rewrite in_app_iff. cbn. tauto.
Qed.

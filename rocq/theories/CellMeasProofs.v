(* Lemmas for CellMeasProps.v. *)
From Verif Require Import Base BaseFacts Plane PLCSpec MeshEditorModel CutModel CutSpec CutProofs CutProofs2 CutProofs4 CutProofs5 CellMeasModel CellMeasSpec.
From Coq Require Import QArith Lqa Psatz Permutation.
Local Open Scope nat_scope.

Lemma first_corner s vs : CellOf s vs -> 1 <= length vs -> exists v0 vt c, Turn vs (v0 :: vt) /\ At s 0 v0 /\ Forall2 (At s) c vt /\ Path (vnext s) (vprev s) (0 :: c ++ [0]) /\ ~ In 0 c /\ S (length c) = vp s /\ length c = length vt.
Proof.
  intros (c & ND & AL & RO & HE) L. pose proof (cell_len _ _ _ ND AL HE) as Len. pose proof (Forall2_len _ _ _ HE) as Len2. assert (I0 : In 0 c) by (apply AL; lia). apply in_split in I0. destruct I0 as (a & b & Ec). subst c.
  destruct (f2_split _ _ _ _ _ HE) as (va & v0 & vb & Ev & Fa & A0 & Fb). apply round_turn in RO. cbn [app] in RO. apply nd_turn in ND. cbn [app] in ND.
  exists v0, (vb ++ va), (b ++ a). split; [exists va, (v0 :: vb); auto|]. split; auto. split; [apply Forall2_app; auto|]. split; [unfold Round in RO; cbn [firstn app] in RO; exact RO|]. split; [inversion ND; auto|].
  rewrite app_length in Len. cbn in Len. pose proof (Forall2_len _ _ _ Fa). pose proof (Forall2_len _ _ _ Fb). rewrite !app_length. split; lia.
Qed.

Fixpoint chain (f : p2 -> p2 -> Q) (a : p2) (l : list p2) : Q := match l with [] => 0%Q | b :: t => (f a b + chain f b t)%Q end.
Lemma ring_chain f a l : (sum_over f (ring (a :: l)) == chain f a l + f (last l a) a)%Q.
Proof.
  unfold ring. cbn [app]. assert (G : forall l a z, (sum_over f (combine (a :: l) (l ++ [z])) == chain f a l + f (last l a) z)%Q).
  { clear. induction l as [|b l IH]; intros a z; [cbn; ring|]. change (sum_over f (combine (a :: b :: l) ((b :: l) ++ [z]))) with (f a b + sum_over f (combine (b :: l) (l ++ [z])))%Q. rewrite IH. cbn [chain]. destruct l as [|c l]; [cbn; ring|].
    replace (last (b :: c :: l) a) with (last (c :: l) b); [ring|]. clear. cbn [last]. revert c. induction l as [|d l IH]; intros c; auto. apply IH. }
  apply G.
Qed.
(* adding triangles from o, each the sum over its three sides *)
Lemma fan_chain (f g : p2 -> p2 -> Q) o : (forall a b, g a b == f o a + f a b - f o b)%Q -> forall l a, (chain g a l == chain f a l + f o a - f o (last l a))%Q.
Proof.
  intros H. induction l as [|b l IH]; intros a; [cbn; ring|]. cbn [chain]. rewrite H, IH. replace (last (b :: l) a) with (last l b); [ring|]. destruct l as [|c l]; auto. clear. cbn [last]. revert c. induction l as [|d l IH]; intros c; auto. apply IH.
Qed.
Definition minus (o p : p2) : p2 := (fst p - fst o, snd p - snd o)%Q.
Lemma fan_ok s o c : forall (vt : list corner) (v1 : corner) fuel a cx cy, Forall2 (At s) c vt -> ~ In 0 c -> Way (vnext s) (c ++ [0]) -> length c <= fuel ->
  exists a' cx' cy', fan s o fuel (hd 0 c) (minus o (fst v1)) a cx cy = Ok (a', cx', cy') /\
    (a' == a + chain (fun p q => cross (minus o p) (minus o q)) (fst v1) (map fst vt))%Q /\
    (cx' == cx + chain (fun p q => cross (minus o p) (minus o q) * (fst (minus o p) + fst (minus o q))) (fst v1) (map fst vt))%Q /\
    (cy' == cy + chain (fun p q => cross (minus o p) (minus o q) * (snd (minus o p) + snd (minus o q))) (fst v1) (map fst vt))%Q.
Proof.
  induction c as [|k c IH]; intros vt v1 fuel a cx cy F N W L.
  - inversion F; subst. exists a, cx, cy. split; [destruct fuel; reflexivity|]. cbn. repeat split; ring.
  - inversion F as [|? v ? vt' A F']; subst. destruct fuel as [|fuel]; [cbn in L; lia|]. cbn [hd fan]. assert (K0 : k <> 0) by (intros ->; apply N; left; auto). rewrite (proj2 (Nat.eqb_neq _ _) K0).
    unfold from_o, peek. unfold At in A. rewrite A. cbn [bind]. assert (Eh : vnext s k = Some (hd 0 c)) by (destruct c; destruct W as [W _]; exact W). rewrite Eh. cbn [bind].
    destruct (IH vt' v fuel (a + cross (minus o (fst v1)) (minus o (fst v)))%Q (cx + cross (minus o (fst v1)) (minus o (fst v)) * (fst (minus o (fst v1)) + fst (minus o (fst v))))%Q (cy + cross (minus o (fst v1)) (minus o (fst v)) * (snd (minus o (fst v1)) + snd (minus o (fst v))))%Q F') as (a' & cx' & cy' & E & Ea & Ex & Ey).
    { intros K. apply N. right. auto. } { apply (way_tl _ _ _ W). } { cbn in L. lia. }
    exists a', cx', cy'. split; [exact E|]. cbn [map chain]. rewrite Ea, Ex, Ey. repeat split; ring.
Qed.
Lemma way_of_path nx pv l : Path nx pv l -> Way nx l.
Proof. apply path_way. Qed.
Lemma chain_app f l : forall a m, (chain f a (l ++ m) == chain f a l + chain f (last l a) m)%Q.
Proof.
  induction l as [|b l IH]; intros a m; [cbn; ring|]. cbn [app chain]. rewrite IH. replace (last (b :: l) a) with (last l b); [ring|]. destruct l as [|c l]; auto. clear. cbn [last]. revert c. induction l as [|d l IH]; intros c; auto. apply IH.
Qed.
Lemma last_app_ne {A} (l m : list A) y a : last (l ++ y :: m) a = last m y.
Proof.
  induction l as [|b l IH]; [cbn [app]|].
  - destruct m as [|c m]; auto. cbn [last]. revert c. induction m as [|d m IH]; intros c; auto. apply IH.
  - cbn [app]. destruct (l ++ y :: m) eqn:E; [destruct l; discriminate|]. rewrite <- IH. reflexivity.
Qed.
Lemma sum_turn f l l' : Turn l l' -> (sum_over f (ring l) == sum_over f (ring l'))%Q.
Proof.
  intros (a & b & -> & ->). destruct a as [|x a]; [rewrite app_nil_r; reflexivity|]. destruct b as [|y b]; [rewrite app_nil_r; reflexivity|]. cbn [app]. rewrite !ring_chain, !chain_app, !last_app_ne. cbn [chain]. ring.
Qed.
Lemma chain_nonneg f l : forall a, (forall p q, In p (a :: l) -> In q (a :: l) -> (exists i, nth_error (a :: l) i = Some p /\ nth_error (a :: l) (S i) = Some q) -> 0 <= f p q)%Q -> (0 <= chain f a l)%Q.
Proof.
  induction l as [|b l IH]; intros a H; [cbn; lra|]. cbn [chain]. assert (0 <= f a b)%Q by (apply H; [left; auto|right; left; auto|exists 0; auto]).
  assert (0 <= chain f b l)%Q; [|lra]. apply IH. intros p q Ip Iq (i & A & B). apply H; [right; auto|right; auto|exists (S i); auto].
Qed.
Lemma chain_pos f l : forall a, (forall i p q, nth_error (a :: l) i = Some p -> nth_error (a :: l) (S i) = Some q -> 0 < f p q)%Q -> l <> [] -> (0 < chain f a l)%Q.
Proof.
  induction l as [|b l IH]; intros a H N; [congruence|]. cbn [chain]. assert (0 < f a b)%Q by (apply (H 0); auto). destruct l as [|c l]; [cbn [chain]; lra|].
  assert (0 < chain f b (c :: l))%Q; [|lra]. apply IH; [|discriminate]. intros i p q A B. apply (H (S i)); auto.
Qed.
Lemma chain_lin (f g h k : p2 -> p2 -> Q) X Y Z : (forall p q, k p q == X * f p q + Y * g p q + Z * h p q)%Q -> forall l a, (chain k a l == X * chain f a l + Y * chain g a l + Z * chain h a l)%Q.
Proof. intros H. induction l as [|b l IH]; intros a; cbn [chain]; [ring|]. rewrite H, IH. ring. Qed.
Lemma sum_half f t ps : (forall a b, f (half a) (half b) == t * f a b)%Q -> (sum_over f (ring (map half ps)) == t * sum_over f (ring ps))%Q.
Proof.
  intros H. destruct ps as [|a l]; [cbn; ring|]. cbn [map]. rewrite !ring_chain. assert (E : forall l a, (chain f (half a) (map half l) == t * chain f a l)%Q) by (clear - H; induction l as [|b l IH]; intros a; cbn [map chain]; [ring|]; rewrite H, IH; ring).
  rewrite E. replace (last (map half l) (half a)) with (half (last l a)); [rewrite H; ring|]. clear. revert a. induction l as [|b l IH]; intros a; auto. destruct l as [|c l]; auto. apply (IH a).
Qed.
Lemma last_cons_def {A} (l : list A) b a : last (b :: l) a = last l b.
Proof. destruct l as [|c l]; auto. cbn [last]. revert c. induction l as [|d l IH]; intros c; auto. apply IH. Qed.

(* what the loop of area and centroid adds up, by the sides of the polygon *)
Lemma fan_of_ok s vs : CellOf s vs -> 3 <= length vs -> exists o vt a cx cy, fan_of s = Ok (o, (a, cx, cy)) /\ Turn (map fst vs) (o :: vt) /\ 2 <= length vt /\
  (a == area2 (map fst vs) /\ cx + 3 * fst o * a == moment_x (map fst vs) /\ cy + 3 * snd o * a == moment_y (map fst vs))%Q /\
  (a == chain (fun p q => cross (minus o p) (minus o q)) (hd o vt) (tl vt))%Q /\
  (forall X Y Z, X * (cx + 3 * fst o * a) + Y * (cy + 3 * snd o * a) + 3 * Z * a == chain (fun p q => cross (minus o p) (minus o q) * ((X * fst o + Y * snd o + Z) + (X * fst p + Y * snd p + Z) + (X * fst q + Y * snd q + Z))) (hd o vt) (tl vt))%Q.
Proof.
  intros C L. destruct (first_corner s vs C ltac:(lia)) as (v0 & vt & c & T & A0 & F & P & N & Lc & Lv).
  assert (LT : length (v0 :: vt) = length vs) by (destruct T as (x & y & E1 & E2); rewrite E2, E1, !app_length; lia). cbn [length] in LT. assert (L2 : 2 <= length vt) by lia.
  destruct F as [|k v1 c vt A1 F]; [cbn in *; lia|]. pose proof (way_of_path _ _ _ P) as W. cbn [app] in W. destruct W as [W0 W].
  assert (W1 : vnext s k = Some (hd 0 c)) by (destruct c; destruct W as [W _]; exact W).
  destruct (fan_ok s (fst v0) c vt v1 (vp s) 0 0 0 F) as (a & cx & cy & E & Ea & Ex & Ey); [intros K; apply N; right; auto|apply (way_tl _ _ _ W)|cbn in Lc; lia|].
  assert (TM : Turn (map fst vs) (fst v0 :: map fst (v1 :: vt))) by (destruct T as (x & y & -> & E2); exists (map fst x), (map fst y); split; [apply map_app|]; change (map fst (v0 :: v1 :: vt) = map fst y ++ map fst x); rewrite E2; apply map_app).
  exists (fst v0), (map fst (v1 :: vt)), a, cx, cy. split.
  - unfold fan_of, from_o, peek. rewrite W0. cbn [bind]. unfold At in A0, A1. rewrite A0. cbn [bind]. rewrite A1. cbn [bind]. rewrite W1. cbn [bind]. unfold minus in E. rewrite E. reflexivity.
  - split; auto. split; [rewrite map_length; exact L2|]. cbn [map hd tl]. set (o := fst v0) in *. set (l := map fst vt) in *. set (p1 := fst v1) in *.
    rewrite Qplus_0_l in Ea, Ex, Ey.
    assert (FA : (chain (fun p q => cross (minus o p) (minus o q)) p1 l == chain cross p1 l + cross o p1 - cross o (last l p1))%Q) by (apply fan_chain; intros p q; unfold cross, minus; cbn [fst snd]; ring).
    assert (FX : (chain (fun p q => cross (minus o p) (minus o q) * (fst o + fst p + fst q)) p1 l == chain (fun a b => (fst a + fst b) * cross a b) p1 l + (fst o + fst p1) * cross o p1 - (fst o + fst (last l p1)) * cross o (last l p1))%Q) by (apply (fan_chain (fun a b => (fst a + fst b) * cross a b)%Q); intros p q; unfold cross, minus; cbn [fst snd]; ring).
    assert (FY : (chain (fun p q => cross (minus o p) (minus o q) * (snd o + snd p + snd q)) p1 l == chain (fun a b => (snd a + snd b) * cross a b) p1 l + (snd o + snd p1) * cross o p1 - (snd o + snd (last l p1)) * cross o (last l p1))%Q) by (apply (fan_chain (fun a b => (snd a + snd b) * cross a b)%Q); intros p q; unfold cross, minus; cbn [fst snd]; ring).
    assert (GX : (cx + 3 * fst o * a == chain (fun p q => cross (minus o p) (minus o q) * (fst o + fst p + fst q)) p1 l)%Q).
    { rewrite Ex, Ea. rewrite (chain_lin (fun p q => cross (minus o p) (minus o q) * (fst (minus o p) + fst (minus o q)))%Q (fun _ _ => 0%Q) (fun p q => cross (minus o p) (minus o q)) (fun p q => cross (minus o p) (minus o q) * (fst o + fst p + fst q))%Q 1 0 (3 * fst o)); [ring|]. intros p q. unfold minus; cbn [fst snd]; ring. }
    assert (GY : (cy + 3 * snd o * a == chain (fun p q => cross (minus o p) (minus o q) * (snd o + snd p + snd q)) p1 l)%Q).
    { rewrite Ey, Ea. rewrite (chain_lin (fun p q => cross (minus o p) (minus o q) * (snd (minus o p) + snd (minus o q)))%Q (fun _ _ => 0%Q) (fun p q => cross (minus o p) (minus o q)) (fun p q => cross (minus o p) (minus o q) * (snd o + snd p + snd q))%Q 1 0 (3 * snd o)); [ring|]. intros p q. unfold minus; cbn [fst snd]; ring. }
    assert (RC : forall f, (sum_over f (ring (map fst vs)) == f o p1 + chain f p1 l + f (last l p1) o)%Q) by (intros f; rewrite (sum_turn f _ _ TM); cbn [map]; fold o p1 l; rewrite ring_chain; cbn [chain]; rewrite last_cons_def; ring).
    split; [split; [|split]|split; [exact Ea|]].
    + unfold area2. rewrite RC, Ea, FA. unfold cross. ring.
    + unfold moment_x. rewrite RC, GX, FX. unfold cross. ring.
    + unfold moment_y. rewrite RC, GY, FY. unfold cross. ring.
    + intros X Y Z. rewrite GX, GY, Ea. symmetry. rewrite (chain_lin (fun p q => cross (minus o p) (minus o q) * (fst o + fst p + fst q))%Q (fun p q => cross (minus o p) (minus o q) * (snd o + snd p + snd q))%Q (fun p q => cross (minus o p) (minus o q)) _ X Y (3 * Z)); [reflexivity|]. intros p q. ring.
Qed.

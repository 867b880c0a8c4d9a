(* Theorems about reduced complexes (C25), boxes (C26) and cells as complexes (C54). *)
From Verif Require Import Base BaseFacts SerializeModel MeshModel MeshSpec MeshProps QuantMeshModel PLCModel PLCSpec PLCProofs PLCProofs2.
From Coq Require Import Sorted QArith.
Local Open Scope nat_scope.

(* ------------------------------------------------------------ C25 *)
(* Facets: always right when indices are in range. *)
Theorem reduced_facets_partial : forall A D (p : plc) (pts : list A),
  (forall f x, In f (facets p) -> In x f -> (0 <= x)%Z /\ D * S (Z.to_nat x) <= length pts) ->
  exists r keep, reduced D p pts = Ok r /\ ReducedTo D p pts r keep.
Proof. intros A D p pts B. destruct (reduced_ok D p pts B) as (r & keep & E & R & _). eauto. Qed.
Print Assumptions reduced_facets_partial.

(* An index out of range is undefined behaviour, never silently accepted. *)
Theorem reduced_out_of_range : forall A D (p : plc) (pts : list A) f x, In f (facets p) -> In x f ->
  ~ ((0 <= x)%Z /\ D * S (Z.to_nat x) <= length pts) -> reduced D p pts = UB.
Proof. intros A D p pts f x. apply reduced_ub. Qed.
Print Assumptions reduced_out_of_range.

(* Holes keep their old numbers: right when every point up to a hole's vertices is also used
   by a facet (so that nothing before them is dropped), ... *)
Theorem reduced_holes_partial : forall A D (p : plc) (pts : list A) r,
  (forall f x, In f (facets p) -> In x f -> (0 <= x)%Z /\ D * S (Z.to_nat x) <= length pts) ->
  (forall h f x i, In h (holes p) -> In f h -> In x f -> i <= Z.to_nat x ->
     exists g, In g (facets p) /\ In (Z.of_nat i) g) ->
  reduced D p pts = Ok r -> HolesKept D p pts r.
Proof.
  intros A D p pts r B H E. destruct (reduced_ok D p pts B) as (r' & keep & E' & R & Hh).
  rewrite E in E'. injection E' as <-. unfold HolesKept. rewrite Hh.
  assert (K : forall h f x, In h (holes p) -> In f h -> In x f -> vertex D (rpoints r) (Z.to_nat x) = vertex D pts (Z.to_nat x)).
  { intros h f x Ih If Ix. rewrite (rd_points _ _ _ _ _ R). apply vertex_concat.
    - apply Forall_forall. intros l Hl. apply in_map_iff in Hl as (i & <- & Ii). apply vertex_length.
      apply (rd_used _ _ _ _ _ R) in Ii as (g & Ig & Ii). destruct (B g _ Ig Ii) as [_ L]. rewrite Nat2Z.id in L. auto.
    - apply map_nth_error. apply sorted_initial; [apply (rd_sorted _ _ _ _ _ R)|].
      intros i Li. apply (rd_used _ _ _ _ _ R). eapply H; eauto. }
  clear - K. induction (holes p) as [|h hs IH]; constructor; [|apply IH; intros; eapply K; eauto; right; auto].
  assert (K' : forall f x, In f h -> In x f -> vertex D (rpoints r) (Z.to_nat x) = vertex D pts (Z.to_nat x)).
  { intros f x If Ix. apply (K h f x); auto. left; auto. }
  clear - K'. induction h as [|f h IH]; constructor; [|apply IH; intros g x Ig Ix; apply (K' g x); auto; right; auto].
  assert (K : forall x, In x f -> vertex D (rpoints r) (Z.to_nat x) = vertex D pts (Z.to_nat x)).
  { intros x Ix. apply (K' f x); auto. left; auto. }
  clear - K. induction f as [|x f IH]; constructor; [apply K; left; auto|apply IH; intros; apply K; right; auto].
Qed.
Print Assumptions reduced_holes_partial.

(* ... and wrong in general: a hole with its own points, the usual case, is not carried over. *)
Definition reduced_all : Prop := forall A D (p : plc) (pts : list A) r,
  (forall f x, In f (facets p) \/ (exists h, In h (holes p) /\ In f h) -> In x f -> (0 <= x)%Z /\ D * S (Z.to_nat x) <= length pts) ->
  reduced D p pts = Ok r -> HolesKept D p pts r.
Definition holed_triangle : plc :=
  mkPLC [[0; 1]; [1; 2]; [2; 0]]%Z [[[3; 4]; [4; 5]; [5; 3]]%Z].
Definition holed_points : list Z := [0; 0;  10; 0;  0; 10;  2; 2;  3; 2;  2; 3]%Z.
Theorem reduced_holes_refuted : ~ reduced_all.
Proof.
  intros H. assert (B : forall f x, In f (facets holed_triangle) \/ (exists h, In h (holes holed_triangle) /\ In f h) -> In x f ->
     (0 <= x)%Z /\ 2 * S (Z.to_nat x) <= length holed_points).
  { intros f x Hf Hx. assert (X : (0 <= x <= 5)%Z).
    { destruct Hf as [Hf|(h & [<-|[]] & Hf)]; repeat (destruct Hf as [<-|Hf]; [repeat (destruct Hx as [<-|Hx]; [lia|]); destruct Hx|]); destruct Hf. }
    change (length holed_points) with 12. lia. }
  specialize (H Z 2 holed_triangle holed_points _ B eq_refl).
  inversion H as [|? ? ? ? H1 _]; subst. inversion H1 as [|? ? ? ? H2 _]; subst. inversion H2 as [|? ? ? ? H3 _]; subst.
  vm_compute in H3. discriminate.
Qed.
Print Assumptions reduced_holes_refuted.

Example reduced_example :
  reduced 2 (mkPLC [[4; 1]; [1; 3]; [3; 4]]%Z []) [0; 0;  10; 0;  7; 7;  0; 10;  5; 5]%Z
  = Ok (mkRPLC [[2; 0]; [0; 1]; [1; 2]]%Z [] [10; 0;  0; 10;  5; 5]%Z).
Proof. reflexivity. Qed.

(* ------------------------------------------------------------ C26 *)
Local Open Scope Q_scope.
Definition at2 (pts : list Q) (k : Z) : Q * Q :=
  match vertex 2 pts (Z.to_nat k) with [x; y] => (x, y) | _ => (0, 0) end.
(* twice the enclosed signed area of a set of directed segments *)
Definition twice_area (r : rplc Q) : Q :=
  fold_right (fun f s => match f with
     | [i; j] => let (xi, yi) := at2 (rpoints r) i in let (xj, yj) := at2 (rpoints r) j in xi * yj - xj * yi + s
     | _ => s end) 0 (rfacets r).
(* facet k ends where facet k+1 begins, cyclically *)
Definition closed_loop (fs : list (list Z)) : Prop :=
  forall k f g, nth_error fs k = Some f -> nth_error fs ((k + 1) mod length fs) = Some g ->
    exists i j l, f = [i; j] /\ g = [j; l].

(* the box boundary: the four corners, walked counter-clockwise *)
Record BoxLoop (xl yl xh yh : Q) (r : rplc Q) : Prop := {
  bx_facets : length (rfacets r) = 4%nat;
  bx_closed : closed_loop (rfacets r);
  bx_corners : map (fun f => match f with i :: _ => at2 (rpoints r) i | _ => (0, 0) end) (rfacets r)
               = [(xl, yl); (xh, yl); (xh, yh); (xl, yh)];
  bx_points : length (rpoints r) = 8%nat;
  bx_area : twice_area r == 2 * ((xh - xl) * (yh - yl)) }.

Lemma four_loop : closed_loop [[0; 1]; [1; 2]; [2; 3]; [3; 0]]%Z.
Proof.
  intros k f g E E'. assert (L := nth_error_lt _ _ _ E). cbn in L.
  destruct k as [|[|[|[|k]]]]; [..|lia]; cbn in E, E'; injection E as <-; injection E' as <-; eauto.
Qed.
Lemma four_area xl yl xh yh hs : twice_area (mkRPLC [[0; 1]; [1; 2]; [2; 3]; [3; 0]]%Z hs [xl; yl; xh; yl; xh; yh; xl; yh])
  == 2 * ((xh - xl) * (yh - yl)).
Proof. unfold twice_area. cbv -[Qplus Qmult Qminus Qeq Qlt Qle Qopp]. ring. Qed.

Theorem box2_correct : forall old xl yl xh yh, rfacets old = [] ->
  exists r, box2 old xl yl xh yh = Ok r /\ BoxLoop xl yl xh yh r /\ rholes r = rholes old.
Proof.
  intros old xl yl xh yh E. unfold box2. rewrite E. eexists. split; [reflexivity|]. split; [|reflexivity].
  constructor; try reflexivity; [apply four_loop|apply four_area].
Qed.
Print Assumptions box2_correct.

(* also when an earlier box is overwritten: rows of length two are reused *)
Theorem box2_reuse : forall old xl yl xh yh, Forall (fun f => length f = 2%nat) (rfacets old) ->
  exists r, box2 old xl yl xh yh = Ok r /\ BoxLoop xl yl xh yh r.
Proof.
  intros old xl yl xh yh F. unfold box2.
  assert (R : exists a b c d, resize [0; 0]%Z 4 (rfacets old) = [a; b; c; d] /\ length a = 2%nat /\ length b = 2%nat /\ length c = 2%nat /\ length d = 2%nat).
  { unfold resize. destruct F as [|a l Ha F]; [do 4 eexists; repeat split|].
    destruct F as [|b l Hb F]; [do 4 eexists; repeat split; auto|].
    destruct F as [|c l Hc F]; [do 4 eexists; repeat split; auto|].
    destruct F as [|d l Hd F]; do 4 eexists; repeat split; auto. }
  destruct R as (a & b & c & d & -> & Ha & Hb & Hc & Hd).
  destruct a as [|a0 [|a1 [|]]]; try discriminate. destruct b as [|b0 [|b1 [|]]]; try discriminate.
  destruct c as [|c0 [|c1 [|]]]; try discriminate. destruct d as [|d0 [|d1 [|]]]; try discriminate.
  eexists. split; [reflexivity|]. constructor; try reflexivity; [apply four_loop|apply four_area].
Qed.
Print Assumptions box2_reuse.

Theorem plc_box2_correct : forall xl yl xh yh, BoxLoop xl yl xh yh (plc_box2 xl yl xh yh) /\ rholes (plc_box2 xl yl xh yh) = [].
Proof. intros. split; [|reflexivity]. constructor; try reflexivity; [apply four_loop|apply four_area]. Qed.
Print Assumptions plc_box2_correct.

(* 3D: vectors *)
Definition at3 (pts : list Q) (k : Z) : Q * Q * Q :=
  match vertex 3 pts (Z.to_nat k) with [x; y; z] => (x, y, z) | _ => (0, 0, 0) end.
Definition sub3 (a b : Q * Q * Q) : Q * Q * Q :=
  let '(ax, ay, az) := a in let '(bx, by_, bz) := b in (ax - bx, ay - by_, az - bz).
Definition dot3 (a b : Q * Q * Q) : Q :=
  let '(ax, ay, az) := a in let '(bx, by_, bz) := b in ax * bx + ay * by_ + az * bz.
Definition cross3 (a b : Q * Q * Q) : Q * Q * Q :=
  let '(ax, ay, az) := a in let '(bx, by_, bz) := b in (ay * bz - az * by_, az * bx - ax * bz, ax * by_ - ay * bx).
(* the normal of a facet at its first vertex *)
Definition facet_normal (pts : list Q) (f : list Z) : Q * Q * Q :=
  match f with
  | i :: j :: k :: _ => cross3 (sub3 (at3 pts j) (at3 pts i)) (sub3 (at3 pts k) (at3 pts i))
  | _ => (0, 0, 0)
  end.
(* six times the signed volume: fan triangles of every facet against the origin *)
Fixpoint fan (pts : list Q) (a b : Z) (t : list Z) : Q :=
  match t with [] => 0 | c :: t' => dot3 (at3 pts a) (cross3 (at3 pts b) (at3 pts c)) + fan pts a c t' end.
Definition six_volume (r : rplc Q) : Q :=
  fold_right (fun f s => match f with a :: b :: t => fan (rpoints r) a b t + s | _ => s end) 0 (rfacets r).

Record BoxSurface (x1 y1 z1 x2 y2 z2 : Q) (r : rplc Q) : Prop := {
  bs_closed : closed_surface (rfacets r);
  (* the vertices of the box, each corner once *)
  bs_corners : forall x y z, In (x, y, z) (map (fun k => at3 (rpoints r) (Z.of_nat k)) (seq 0 8)) <->
     (x = x1 \/ x = x2) /\ (y = y1 \/ y = y2) /\ (z = z1 \/ z = z2);
  bs_points : length (rpoints r) = 24%nat;
  (* facets are planar, ... *)
  bs_planar : forall f i k, In f (rfacets r) -> In i f -> In k f ->
     dot3 (facet_normal (rpoints r) f) (sub3 (at3 (rpoints r) i) (at3 (rpoints r) k)) == 0;
  (* ... and the rest of the box is strictly on their inner side *)
  bs_outward : x1 < x2 -> y1 < y2 -> z1 < z2 -> forall f i k, In f (rfacets r) -> In i f -> (0 <= k <= 7)%Z -> ~ In k f ->
     dot3 (facet_normal (rpoints r) f) (sub3 (at3 (rpoints r) k) (at3 (rpoints r) i)) < 0;
  bs_volume : six_volume r == 6 * ((x2 - x1) * (y2 - y1) * (z2 - z1)) }.

Lemma pos3 a b c : 0 < a -> 0 < b -> 0 < c -> 0 < a * b * c.
Proof. intros A B C. repeat apply Qmult_lt_0_compat; auto. Qed.

Theorem plc_box3_correct : forall x1 y1 z1 x2 y2 z2,
  BoxSurface x1 y1 z1 x2 y2 z2 (plc_box3 x1 y1 z1 x2 y2 z2) /\ rholes (plc_box3 x1 y1 z1 x2 y2 z2) = [].
Proof.
  intros. split; [|reflexivity]. constructor.
  - split.
    + vm_compute. repeat constructor; cbn; intros H; repeat (destruct H as [H|H]; [discriminate H|]); auto.
    + intros e I. vm_compute in I. repeat (destruct I as [<-|I]; [vm_compute; tauto|]). destruct I.
  - intros x y z. cbn. split.
    + intros I. repeat (destruct I as [E|I]; [injection E as <- <- <-; tauto|]). destruct I.
    + intros [[-> | ->] [[-> | ->] [-> | ->]]]; tauto.
  - reflexivity.
  - intros f i k If Ii Ik. cbn in If.
    repeat (destruct If as [<-|If]; [cbn in Ii, Ik;
      repeat (destruct Ii as [<-|Ii]; [repeat (destruct Ik as [<-|Ik]; [unfold facet_normal; cbv -[Qplus Qmult Qminus Qeq Qlt Qle Qopp]; ring|]); destruct Ik|]); destruct Ii|]).
    destruct If.
  - intros Hx Hy Hz.
    assert (P : 0 < (x2 - x1) * (y2 - y1) * (z2 - z1)).
    { apply pos3; apply -> Qlt_minus_iff; auto. }
    intros f i k If Ii Rk Nk. apply Qlt_minus_iff.
    assert (C : (k = 0 \/ k = 1 \/ k = 2 \/ k = 3 \/ k = 4 \/ k = 5 \/ k = 6 \/ k = 7)%Z) by lia.
    cbn in If.
    repeat (destruct If as [<-|If]; [cbn in Ii, Nk;
      repeat (destruct Ii as [<-|Ii]; [
        repeat (destruct C as [-> | C]; [first [exfalso; tauto | eapply Qlt_le_trans; [exact P|apply Qle_lteq; right; unfold facet_normal; cbv -[Qplus Qmult Qminus Qeq Qlt Qle Qopp]; ring]]|]);
        subst k; first [exfalso; tauto | eapply Qlt_le_trans; [exact P|apply Qle_lteq; right; unfold facet_normal; cbv -[Qplus Qmult Qminus Qeq Qlt Qle Qopp]; ring]]
      |]); destruct Ii|]).
    destruct If.
  - unfold six_volume. cbv -[Qplus Qmult Qminus Qeq Qlt Qle Qopp]. ring.
Qed.
Print Assumptions plc_box3_correct.

Example box3_example : exists r, plc_box3 0 0 0 1 2 3 = r /\ six_volume r == 36.
Proof. eexists. split; [reflexivity|]. reflexivity. Qed.
Local Close Scope Q_scope.

(* ------------------------------------------------------------ C54 *)
Theorem cell_polygon_correct : forall V (m : mesh V) icell c, mesh_empty m = false ->
  nth_error (cells m) icell = Some c -> 3 <= length c ->
  (* faces have two nodes, in range *)
  (forall z, In z c -> exists a b, nth_error (faces m) (pid z) = Some [a; b] /\ a < length (nodes m) / 2 /\ b < length (nodes m) / 2) ->
  (* the cell is a closed loop: each face starts where the previous one ends *)
  (forall k z z', nth_error c k = Some z -> nth_error c ((k + 1) mod length c) = Some z' ->
     exists a b d, walk m z = Some (a, b) /\ walk m z' = Some (b, d)) ->
  exists r, cell_plc2 m icell = Ok r /\ CellPolygon m c r.
Proof.
  intros V m icell c E Hc L G Cl. apply cell_plc2_ok; auto. apply Forall_forall. intros z Iz. apply (G z Iz).
Qed.
Print Assumptions cell_polygon_correct.

Theorem cell_polyhedron_correct : forall V (m : mesh V) icell c, nth_error (cells m) icell = Some c ->
  (forall z, In z c -> exists f, nth_error (faces m) (pid z) = Some f /\ forall n, In n f -> n < length (nodes m) / 3) ->
  exists r keep, cell_plc3 m icell = Ok r /\ CellPolyhedron m c r keep.
Proof. intros V m icell c. apply cell_plc3_ok. Qed.
Print Assumptions cell_polyhedron_correct.

(* the right-hand square of two squares sharing a side, walked -2 (that is ~1), 4, 5, 6 *)
Example cell_polygon_example :
  cell_plc2 (mkMesh [0;0; 1;0; 1;1; 0;1; 2;0; 2;1]%Z [[0;1;2;3]; [4;5;6;-2]]%Z
     [[0;1]; [1;2]; [2;3]; [3;0]; [1;4]; [4;5]; [5;2]] [] [] [[0]; [0;-2]; [0]; [0]; [1]; [1]; [1]]%Z plc_new [] [] []) 1
  = Ok (mkRPLC [[0;1]; [1;2]; [2;3]; [3;0]]%Z [] [2;0; 2;1; 1;1; 1;0]%Z).
Proof. reflexivity. Qed.
Example cell_polyhedron_example :
  cell_plc3 (mkMesh [0;0;0; 1;0;0; 0;1;0; 0;0;1]%Z [[0;1;-3;3]]%Z
     [[0;2;1]; [0;1;3]; [3;2;1]; [0;3;2]] [] [] [[0]; [0]; [-1]; [0]]%Z plc_new [] [] []) 0
  = Ok (mkRPLC [[0;1;2]; [0;2;3]; [2;1;3]; [0;3;1]]%Z [] [0;0;0; 0;1;0; 1;0;0; 0;0;1]%Z).
Proof. reflexivity. Qed.

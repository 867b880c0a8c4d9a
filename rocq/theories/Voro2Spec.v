(* What a mesh read out of a list of planar Voronoi cells should be.  Independent of how the read-out
   finds nodes and faces again and of how it orders the vertices of a cell. *)
From Verif Require Import Base PLCSpec MeshModel MeshSpec Plane VoroModel VoroSpec Voro2Model.
From Coq Require Import QArith Qround.
Local Open Scope nat_scope.

(* the nearest point of the grid of spacing dx, kept within the integers of the program *)
Definition snap1 (dx v : Q) : Z := Z.max 0 (Z.min (2 ^ 31 - 2) (Qfloor (v / dx + (1 # 2)))).
(* where the program puts the vertex q of a cell, and where it is *)
Definition placed2 (c : vcell2) (q : p2) : p2 :=
  (fst (c2_pos c) + fst (c2_centroid c) + fst q * (1 # 2), snd (c2_pos c) + snd (c2_centroid c) + snd q * (1 # 2))%Q.
Definition truly2 (c : vcell2) (q : p2) : p2 := (fst (c2_pos c) + fst q * (1 # 2), snd (c2_pos c) + snd q * (1 # 2))%Q.
Definition spots2 (dx : Q) (c : vcell2) : list (Z * Z) :=
  map (fun q => (snap1 dx (fst (placed2 c q)), snap1 dx (snd (placed2 c q)))) (c2_pts c).

(* twice the area of a triangle of grid points, positive when it turns left *)
Definition turn (a b c : Z * Z) : Z := ((fst b - fst a) * (snd c - snd a) - (snd b - snd a) * (fst c - fst a))%Z.
Definition dotz (a b c : Z * Z) : Z := ((fst b - fst a) * (fst c - fst a) + (snd b - snd a) * (snd c - snd a))%Z.
(* the polygon ps is convex, counterclockwise, without straight angles, and the convex hull of zs *)
Definition HullOf (zs ps : list (Z * Z)) : Prop :=
  3 <= length ps /\ incl ps zs
  /\ (forall i j k a b c, i < j < k -> nth_error ps i = Some a -> nth_error ps j = Some b -> nth_error ps k = Some c -> (0 < turn a b c)%Z)
  /\ (forall a b z, In (a, b) (ring ps) -> In z zs -> (0 <= turn a b z)%Z).
(* all of zs is to the left of the line from a to b, two of its points *)
Definition EdgeOf (zs : list (Z * Z)) (a b : Z * Z) : Prop := In a zs /\ In b zs /\ a <> b /\ forall z, In z zs -> (0 <= turn a b z)%Z.

(* the first point of zs is the corner of a right angle to the next one that differs from it *)
Definition RightAngle (zs : list (Z * Z)) : Prop :=
  exists z0 j zj i zi, nth_error zs 0 = Some z0 /\ nth_error zs j = Some zj /\ nth_error zs i = Some zi
    /\ zj <> z0 /\ (forall k z, k < j -> nth_error zs k = Some z -> z = z0) /\ j + 1 < length zs /\ 2 <= i
    /\ zi <> z0 /\ dotz z0 zj zi = 0%Z.
(* the first point of zs that differs from the first one is less than 46341 steps from it *)
Definition FirstNear (zs : list (Z * Z)) : Prop :=
  forall j z0 zj, nth_error zs 0 = Some z0 -> nth_error zs j = Some zj -> zj <> z0 ->
    (forall k z, k < j -> nth_error zs k = Some z -> z = z0) -> (dotz z0 zj zj < 2 ^ 31)%Z.
Definition apart2 (p q : Z * Z) : Prop := p = q \/ (1 < Z.abs (fst p - fst q))%Z \/ (1 < Z.abs (snd p - snd q))%Z.

Record Readable2 (dx : Q) (n : nat) (cs : list vcell2) : Prop := {
  r2_dx : (0 < dx)%Q;
  (* every cell belongs to one generator *)
  r2_pids : NoDup (map c2_pid cs);
  r2_pid : forall c, In c cs -> c2_pid c < n;
  (* different vertices are not next to one another in the grid *)
  r2_apart : forall c d p q, In c cs -> In d cs -> In p (spots2 dx c) -> In q (spots2 dx d) -> apart2 p q;
  (* the accidents on which the hull depends *)
  r2_angle : forall c, In c cs -> RightAngle (spots2 dx c) /\ FirstNear (spots2 dx c);
  (* cells do not overlap: no two are on the same side of the same edge *)
  r2_disjoint : forall c d a b, In c cs -> In d cs -> EdgeOf (spots2 dx c) a b -> EdgeOf (spots2 dx d) a b -> c = d }.

(* the entry z of a cell is the edge from grid point a to grid point b, the nodes being the points ns *)
Definition Along (ns : list (Z * Z)) (fs : list (list nat)) (e : (Z * Z) * (Z * Z)) (z : Z) : Prop :=
  exists i j, nth_error fs (pid z) = Some (if (0 <=? z)%Z then [i; j] else [j; i])
    /\ nth_error ns i = Some (fst e) /\ nth_error ns j = Some (snd e).

(* the mesh read out of the cells cs, for n generators, in the box with low corner lo and size s *)
Record ReadOut2 (dx s : Q) (lo : p2) (n : nat) (cs : list vcell2) (m : mesh Q) : Prop := {
  o2_wf : WellFormed 2 m;
  o2_body : exists ns, NoDup ns
    /\ Forall2 Qeq (nodes m) (flat_map (fun z => [fst lo + inject_Z (fst z) * dx * s; snd lo + inject_Z (snd z) * dx * s]%Q) ns)
    /\ length (cells m) = n
    /\ (forall i l, nth_error (cells m) i = Some l ->
         (exists c ps, In c cs /\ c2_pid c = i /\ HullOf (spots2 dx c) ps /\ incl ps ns /\ Forall2 (Along ns (faces m)) (ring ps) l)
         \/ (l = [] /\ ~ In i (map c2_pid cs)))
    /\ (forall p, In p ns -> exists c a b, In c cs /\ EdgeOf (spots2 dx c) a b /\ (p = a \/ p = b));
  o2_distinct : forall i j f g, nth_error (faces m) i = Some f -> nth_error (faces m) j = Some g -> sameset f g -> i = j;
  o2_rest : boundaryNodes m = [] /\ boundaryFaces m = [] }.

(* Model of the ready made geometries, src/polytope_plc_canned_geometries.hh lines 15-115 (plc_box is
   in PLCModel.v).  Coordinates are real numbers in place of double; M_PI is the number pi. *)
From Coq Require Import Reals.
From Verif Require Import Base SerializeModel MeshModel NearModel.
Local Open Scope R_scope.

(* plc_circle, lines 15-36 *)
Definition plc_circle (center : R * R) (radius : R) (ntheta : nat) : res (rplc R) :=
  do _ <- assert (2 <? ntheta)%nat;
  let dtheta := 2 * PI / INR ntheta in
  Ok (mkRPLC (map (fun i => [Z.of_nat i; Z.of_nat ((i + 1) mod ntheta)]) (seq 0 ntheta)) []
        (flat_map (fun i => let theta := (INR i + / 2) * dtheta in
                            [fst center + radius * cos theta; snd center + radius * sin theta]) (seq 0 ntheta))).

(* conversion of a double to unsigned: undefined outside the range *)
Definition as_unsigned (x : R) : res nat :=
  if rlt (-1) x then if rlt x (IZR (2 ^ 32)) then Ok (Z.to_nat (Int_part x)) else UB else UB.
Notation point3 := (R * R * R)%type.
Definition flat3 (p : point3) : list R := let '(x, y, z) := p in [x; y; z].

(* plc_sphere, lines 40-78; hull are the facets of convexHull_3d of the points *)
Definition sphere_row (center : point3) (radius : R) (nphi iphi : nat) : res (list R) :=
  let '(cx, cy, cz) := center in
  let dphi := PI / INR nphi in
  let phi := (INR iphi + / 2) * dphi in
  let dl := radius * dphi in
  let rxy := radius * sin phi in
  let circ := 2 * PI * rxy in
  do n <- as_unsigned (circ / dl + / 2);
  let ntheta := Nat.max 1 n in
  let dtheta := 2 * PI / INR ntheta in
  Ok (flat_map (fun i => let theta := (INR i + / 2) * dtheta in
        [cx + radius * cos theta * sin phi; cy + radius * sin theta * sin phi; cz + radius * cos phi]) (seq 0 ntheta)).
Definition plc_sphere (hull : list R -> point3 -> R -> res (list (list Z))) (center : point3) (radius : R) (nphi : nat) : res (rplc R) :=
  let '(cx, cy, cz) := center in
  do _ <- assert (0 <? nphi)%nat;
  do rows <- mmap (sphere_row center radius nphi) (seq 0 nphi);
  let points := concat rows in
  let w := 11 / 10 * radius in
  do fs <- hull points (cx - w, cy - w, cz - w) (radius / IZR (2 ^ 21));
  Ok (mkRPLC fs [] points).

(* plc_cylinder, lines 82-115 *)
Definition plc_cylinder (hull : list R -> point3 -> R -> res (list (list Z))) (center : point3) (radius len : R) (ncirc : nat) : res (rplc R) :=
  let '(cx, cy, cz) := center in
  do _ <- assert (3 <=? ncirc)%nat;
  let dtheta := 2 * PI / INR ncirc in
  let points := flat_map (fun i => let theta := (INR i + / 2) * dtheta in
        [cx + radius * cos theta; cy + radius * sin theta; cz + / 2 * len;
         cx + radius * cos theta; cy + radius * sin theta; cz - / 2 * len]) (seq 0 ncirc) in
  let w := 11 / 10 * radius in
  do fs <- hull points (cx - w, cy - w, cz - 6 / 10 * len) (len / IZR (2 ^ 21));
  Ok (mkRPLC fs [] points).

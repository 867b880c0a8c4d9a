(* Model of simplifyPLCfacets in space, src/simplifyPLCfacets.hh lines 139-352, with exact
   rational coordinates in place of double.  Lengths are compared by their squares, so that no
   square roots are needed.  Point numbers are not negative. *)
From Coq Require Import QArith Qabs.
From Verif Require Import Base KeyMapModel FaceSortModel Plane PLCSpec MeshEditorModel HashModel RayModel Hull3Model SimplifyModel.
Local Open Scope nat_scope.

(* the point at &points[3*i] *)
Definition pat (pts : list Q) (i : nat) : res p3 :=
  do x <- get pts (3 * i); do y <- get pts (3 * i + 1); do z <- get pts (3 * i + 2); Ok (x, y, z).
(* geometry::distance(a, b) < tol, polytope_geometric_utilities.hh lines 298-318 *)
Definition nearb (tol : Q) (a b : p3) : bool :=
  Qlt_bool 0 tol && Qlt_bool (dot3 (sub3 b a) (sub3 b a)) (tol * tol)%Q.
(* geometry::collinear<3>(a, b, c, tol), lines 426-444, without the square roots as in RayModel *)
Definition inlineb (tol : Q) (a b c : p3) : bool :=
  let ab := sub3 b a in let ac := sub3 c a in
  if Qlt_bool (dot3 ab ab) tol || Qlt_bool (dot3 ac ac) tol then true
  else Qlt_bool 1 tol || (Qlt_bool 0 tol &&
       Qlt_bool ((1 - tol) * (1 - tol) * (dot3 ab ab * dot3 ac ac)) (dot3 ab ac * dot3 ab ac))%Q.
(* lines 231-232: | n.m - |n||m| | < tol *)
Definition facingb (tol : Q) (n m : p3) : bool :=
  let d := dot3 n m in let s := (dot3 n n * dot3 m m)%Q in
  Qlt_bool 0 (d + tol) && Qlt_bool s ((d + tol) * (d + tol)) &&
  (Qlt_bool (d - tol) 0 || Qlt_bool ((d - tol) * (d - tol)) s).
(* line 297: |j||k| - |j.k| > tol *)
Definition bendb (tol : Q) (j k : p3) : bool :=
  let c := (tol + Qabs (dot3 j k))%Q in
  Qlt_bool c 0 || Qlt_bool (c * c) (dot3 j j * dot3 k k).

(* lines 185-188: the first point not near p1, and the points after it *)
Fixpoint first_far (points : list Q) (tol : Q) (p1 : p3) (l : list nat) : res (option (p3 * list nat)) :=
  match l with
  | [] => Ok None
  | j :: t => do p <- pat points j; if nearb tol p1 p then first_far points tol p1 t else Ok (Some (p, t))
  end.
(* lines 191-194: the first point not in line with p1 and p2 *)
Fixpoint first_bent (points : list Q) (tol : Q) (p1 p2 : p3) (l : list nat) : res (option p3) :=
  match l with
  | [] => Ok None
  | j :: t => do p <- pat points j; if inlineb tol p1 p2 p then first_bent points tol p1 p2 t else Ok (Some p)
  end.
(* lines 182-208: the normal of a facet; None when it is degenerate, which is flagged as used *)
Definition facet_normal (points : list Q) (tol : Q) (f : list nat) : res (option p3) :=
  do _ <- assert (3 <=? length f);
  do k1 <- get f 0; do p1 <- pat points k1;
  do r <- first_far points tol p1 (tl f);
  match r with
  | None => Ok None
  | Some (p2, t) =>
      do r <- first_bent points tol p1 p2 t;
      match r with
      | None => Ok None
      | Some p3 => Ok (Some (cross3 (sub3 p2 p1) (sub3 p3 p1)))
      end
  end.

Definition memb (n : nat) (l : list nat) : bool := existsb (Nat.eqb n) l.
(* nodeFacets[n], lines 164-175: the facets with node n, each once, ascending (computed directly) *)
Definition facets_at (ims : list (list nat)) (n : nat) : list nat :=
  filter (fun g => memb n (nth g ims [])) (seq 0 (length ims)).

Section Glue.
  Context (tol : Q) (normals : list (option p3)) (ims : list (list nat)).
  (* used flags, the facets glued together, the nodes to check *)
  Definition gstate := (list bool * list nat * list nat)%type.
  (* lines 228-240 *)
  Definition glue_facet (i : nat) (ni : p3) (st : gstate) (g : nat) : res gstate :=
    let '(used, group, nodes) := st in
    do u <- get used g;
    if negb (g =? i) && negb u then
      do ng <- get normals g;
      match ng with
      | Some m =>
          if facingb tol ni m then
            do used <- set used g true; do im <- get ims g; Ok (used, group ++ [g], nodes ++ im)
          else Ok st
      | None => Ok st (* not reached: degenerate facets are flagged as used *)
      end
    else Ok st.
  (* lines 213-241.  The loop runs through the set of nodes in ascending order while nodes are
     being inserted: a node is visited exactly if it is in the set when the loop comes to it. *)
  Definition glue (nnodes i : nat) (ni : p3) (used : list bool) : res gstate :=
    do used <- set used i true;
    do im <- get ims i;
    mfold (fun st n => let '(_, _, nodes) := st in
        if memb n nodes then mfold (glue_facet i ni) (facets_at ims n) st else Ok st)
      (seq 0 nnodes) (used, [i], im).
End Glue.

(* lines 251-257: the hashed edges of a facet *)
Definition facet_edges (im : list nat) : res (list (Z * Z)) :=
  mmap (fun j =>
      do a <- get im j; do b <- get im ((j + 1) mod length im);
      KeyMapModel.hashEdge (Z.of_nat a) (Z.of_nat b)) (seq 0 (length im)).
Definition edge_eqb (a b : Z * Z) : bool := (fst a =? fst b)%Z && (snd a =? snd b)%Z.
Definition ecount (l : list (Z * Z)) (e : Z * Z) : nat := length (filter (edge_eqb e) l).
(* lines 246-270: the edges that were counted once, in the order of the map *)
Definition once_edges (all : list (Z * Z)) : list (Z * Z) :=
  fold_left (fun s e => oinsert edge_lt e s) (filter (fun e => ecount all e =? 1) all) [].

(* lines 287-294: the vector along the signed edge z *)
Definition along_edge (pts : list Q) (edges : list (Z * Z)) (z : Z) : res p3 :=
  do e <- get edges (pid z);
  do a <- pat pts (Z.to_nat (fst e)); do b <- pat pts (Z.to_nat (snd e));
  Ok (if (0 <=? z)%Z then sub3 b a else opp3 (sub3 b a)).
(* lines 280-300 *)
Definition outline_corners (pts : list Q) (tol : Q) (edges : list (Z * Z)) (order : list Z) : res (list nat) :=
  do l <- mmap (fun j =>
      do jorder <- get order j; do korder <- get order ((j + 1) mod length edges);
      do ej <- get edges (pid jorder); do ek <- get edges (pid korder);
      do _ <- assert ((if (jorder <? 0)%Z then fst ej else snd ej) =? (if (korder <? 0)%Z then snd ek else fst ek))%Z;
      do jhat <- along_edge pts edges jorder; do khat <- along_edge pts edges korder;
      Ok (if bendb tol jhat khat then [Z.to_nat (if (korder <? 0)%Z then snd ek else fst ek)] else []))
    (seq 0 (length edges));
  Ok (concat l).
(* the normal at the first three corners, lines 304-316 *)
Definition corner_normal (pts : list Q) (f : list nat) : res p3 :=
  do i <- get f 0; do j <- get f 1; do k <- get f 2;
  do a <- pat pts i; do b <- pat pts j; do c <- pat pts k;
  Ok (cross3 (sub3 b a) (sub3 c a)).
(* lines 244-317 *)
Definition outline (points pts : list Q) (tol : Q) (ims : list (list nat)) (group f : list nat) : res (list nat) :=
  do all <- mmap (fun g => do im <- get ims g; facet_edges im) group;
  let edges := once_edges (concat all) in
  do _ <- assert (3 <=? length edges);
  do (hanging, edges, order) <- computeSortedFaceEdges edges;
  do _ <- assert (negb hanging);
  do newfacet <- outline_corners pts tol edges order;
  do _ <- assert (3 <=? length newfacet);
  do oldnorm <- corner_normal points f;
  do newnorm <- corner_normal pts newfacet;
  Ok (if Qlt_bool (dot3 oldnorm newnorm) 0 then rev newfacet else newfacet).

(* lines 210-319 *)
Definition new_facets (points pts : list Q) (tol : Q) (facets ims : list (list nat)) (normals : list (option p3)) : res (list (list nat)) :=
  do (_, fs) <- mfold (fun '(used, fs) i =>
      do u <- get used i;
      if u : bool then Ok (used, fs) else
      do ni <- get normals i;
      match ni with
      | None => Ok (used, fs) (* not reached *)
      | Some ni =>
          do (used, group, _) <- glue tol normals ims (length pts / 3) i ni used;
          do f <- get facets i;
          do nf <- outline points pts tol ims group f;
          Ok (used, fs ++ [nf])
      end) (seq 0 (length facets)) (map (fun n => match n with None => true | Some _ => false end) normals, []);
  Ok fs.

(* lines 333-340, in place *)
Definition compact3 (mask : list Z) (pts : list Q) : res (list Q) :=
  mfold (fun pts i =>
      do m <- get mask i;
      if negb (m =? -1)%Z then
        do _ <- assert (m <=? Z.of_nat i)%Z;
        if (m <? 0)%Z then UB else
        do x <- get pts (3 * i); do pts <- set pts (3 * Z.to_nat m) x;
        do y <- get pts (3 * i + 1); do pts <- set pts (3 * Z.to_nat m + 1) y;
        do z <- get pts (3 * i + 2); set pts (3 * Z.to_nat m + 2) z
      else Ok pts) (seq 0 (length mask)) pts.

(* simplifyPLCfacets<3>, lines 139-352: the points and facets of the result, which has no holes.
   The mask is that of the planar routine (lines 322-332 and 342-348 are the same as there). *)
Definition simplify3 (key : keyty) (facets : list (list nat)) (points xmin xmax : list Q) (tol : Q) : res (list Q * list (list nat)) :=
  do (pts, old2new) <- uniquePoints key 3 points xmin xmax tol;
  do ims <- mmap (fun f => mmap (get old2new) f) facets;
  do normals <- mmap (facet_normal points tol) facets;
  do fs <- new_facets points pts tol facets ims normals;
  do _ <- assert (4 <=? length fs);
  do mask <- used_mask (length pts / 3) fs;
  do (mask, k) <- number_mask mask;
  do pts <- compact3 mask pts;
  do fs <- renumber mask fs;
  Ok (firstn (3 * k) pts, fs).

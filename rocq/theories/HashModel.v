(* Model of the position hashing of src/polytope_geometric_utilities.hh (Hasher<2>, Hasher<3>,
   uniquePoints), of tessellateDegenerate in src/TessellatorInline.hh and of
   src/mortonOrderIndices.hh.  Real coordinates are exact rationals.
   The integer type of keys is a parameter, so that the same code can be studied with the type
   it is compiled with (int_key) and with the 64 bit type its comments speak of (uint64_key). *)
From Verif Require Import Base PLCSpec BoxModel.
From Coq Require Import QArith.
Local Open Scope Z_scope.

(* ---- integer types ---- *)
Record keyty := mkKey { width : Z; signed : bool }.
Definition kmin (k : keyty) : Z := if signed k then - 2 ^ (width k - 1) else 0.
Definition kmax (k : keyty) : Z := if signed k then 2 ^ (width k - 1) - 1 else 2 ^ width k - 1.
(* conversion to the type: the value congruent modulo 2^width.  Overflow of signed arithmetic is
   modelled the same way, as compilers for two's complement machines do. *)
Definition norm (k : keyty) (v : Z) : Z := (v - kmin k) mod 2 ^ width k + kmin k.
(* v << c: a shift count of at least the width is undefined *)
Definition shl (k : keyty) (v c : Z) : res Z := if c <? width k then Ok (norm k (v * 2 ^ c)) else UB.
(* v >> c on a value of the type: arithmetic shift *)
Definition shr (k : keyty) (v c : Z) : res Z := if c <? width k then Ok (Z.shiftr v c) else UB.
Definition kadd (k : keyty) (a b : Z) : Z := norm k (a + b).

(* KeyTraits.hh line 15: typedef int Key *)
Definition int_key : keyty := mkKey 32 true.
(* the type the comments of KeyTraits.hh (line 5) and of Hasher (lines 54-56) assume *)
Definition uint64_key : keyty := mkKey 64 false.

Section Hasher.
  Context (k : keyty).
  (* num1dbits, lines 66 and 177 *)
  Definition num1dbits (D : nat) : Z := match D with 2%nat => 31 | _ => 21 end.
  (* coordMax and xmask, lines 68, 70, 178, 180 (unsigned long long converted to the key type) *)
  Definition hcoordMax (D : nat) : Z := norm k (2 ^ num1dbits D - 1).
  (* numeric_limits<double>::epsilon() *)
  Definition eps : Q := 1 # (2 ^ 52).

  (* hash(x,y) and hash(x,y,z), lines 74 and 186, from left to right; j is the number of the
     next coordinate *)
  Fixpoint hash_from (D : nat) (j : Z) (qs : list Z) (acc : Z) : res Z :=
    match qs with
    | [] => Ok acc
    | q :: t => do s <- shl k q (j * num1dbits D); hash_from D (j + 1) t (kadd k acc s)
    end.
  Definition hash (D : nat) (qs : list Z) : res Z := hash_from D 0 qs 0.

  (* qxval, qyval, qzval, lines 70-73 and 180-185 *)
  Definition qval (D : nat) (v : Z) (j : nat) : res Z :=
    do mask <- shl k (hcoordMax D) (Z.of_nat j * num1dbits D);
    shr k (Z.land v mask) (Z.of_nat j * num1dbits D).

  (* the cell size along one axis, lines 109-110, 145-146, 226-228, 264-266 *)
  Definition hstep (D : nat) (lo hi tol : Q) : Q :=
    qmax ((hi - lo) / inject_Z (hcoordMax D)) (qmax tol eps).
  (* conversion of a real to the key type: undefined outside its range *)
  Definition to_key (q : Q) : res Z :=
    let t := trunc q in if (kmin k <=? t) && (t <=? kmax k) then Ok t else UB.
  (* one argument of hash, lines 112-113 and 229-231 *)
  Definition hcell (D : nat) (lo hi tol x : Q) : res Z :=
    do t <- to_key (qmax 0 (x - lo) / hstep D lo hi tol);
    Ok (Z.min (hcoordMax D) t).

  Definition at_ (p : list Q) (j : nat) : Q := nth j p 0%Q.
  Definition qlt (a b : Q) : bool := negb (Qle_bool b a).
  (* lines 83-88, 127-132; in 3D the inner box must not be degenerate, lines 195-203, 243-251 *)
  Definition boxes_ok (D : nat) (li hi lo ho : list Q) : bool :=
    forallb (fun j => Qle_bool (at_ lo j) (at_ li j)) (seq 0 D) &&
    forallb (fun j => Qle_bool (at_ hi j) (at_ ho j)) (seq 0 D) &&
    forallb (fun j => match D with
                      | 2%nat => Qle_bool (at_ li j) (at_ hi j)
                      | _ => qlt (at_ li j) (at_ hi j) end) (seq 0 D).
  Definition outside (D : nat) (p li hi : list Q) : bool :=
    existsb (fun j => qlt (at_ p j) (at_ li j) || qlt (at_ hi j) (at_ p j)) (seq 0 D).

  (* hashPosition, lines 77-117 and 189-233 *)
  Definition hashPosition (D : nat) (p li hi lo ho : list Q) (tol : Q) : res Z :=
    do _ <- assert (boxes_ok D li hi lo ho);
    do _ <- assert (forallb (fun j => Qle_bool (at_ lo j) (at_ p j) && Qle_bool (at_ p j) (at_ ho j)) (seq 0 D));
    let out := outside D p li hi in
    let '(xl, xh) := if out then (lo, ho) else (li, hi) in
    (* result is converted to unsigned long long, added to 2^63, and converted back *)
    let r := if out then norm k (2 ^ 63) else 0 in
    do qs <- mmap (fun j => hcell D (at_ xl j) (at_ xh j) tol (at_ p j)) (seq 0 D);
    do h <- hash D qs;
    Ok (kadd k r h).

  (* unhashPosition, lines 120-161 and 236-278; the key is compared as unsigned long long *)
  Definition unhashPosition (D : nat) (li hi lo ho : list Q) (v : Z) (tol : Q) : res (list Q) :=
    do _ <- assert (boxes_ok D li hi lo ho);
    let '(xl, xh) := if 2 ^ 63 <=? v mod 2 ^ 64 then (lo, ho) else (li, hi) in
    do p <- mmap (fun j =>
        do q <- qval D v j;
        Ok (qmax (at_ xl j) (qmin (at_ xh j)
              (at_ xl j + (inject_Z q + (1 # 2)) * hstep D (at_ xl j) (at_ xh j) tol)))) (seq 0 D);
    do _ <- assert (forallb (fun j => Qle_bool (at_ xl j) (at_ p j) && Qle_bool (at_ p j) (at_ xh j)) (seq 0 D));
    Ok p.

  (* ---- uniquePoints, lines 1350-1389 ---- *)
  (* std::map<CoordHash, unsigned>: find *)
  Definition zfind (h : Z) (m : list (Z * nat)) : option nat :=
    option_map snd (List.find (fun e => fst e =? h) m).
  Definition unique_step (D : nat) (points : list Q) (xmin xmax : list Q) (tol : Q)
      (st : list (Z * nat) * list Q * list nat) (i : nat) : res (list (Z * nat) * list Q * list nat) :=
    let '(m, ups, imap) := st in
    do h <- hashPosition D (vertex D points i) xmin xmax xmin xmax tol;
    match zfind h m with
    | None =>
        (* j counts the entries of the map *)
        let j := length m in
        do _ <- unhashPosition D xmin xmax xmin xmax h tol;
        Ok (m ++ [(h, j)], ups ++ vertex D points i, imap ++ [j])
    | Some j => Ok (m, ups, imap ++ [j])
    end.
  Definition uniquePoints (D : nat) (points : list Q) (xmin xmax : list Q) (tol : Q) : res (list Q * list nat) :=
    do _ <- assert (length points mod D =? 0)%nat;
    let n := (length points / D)%nat in
    do (m, ups, imap) <- mfold (unique_step D points xmin xmax tol) (seq 0 n) ([], [], []);
    do _ <- assert (length ups mod D =? 0)%nat;
    do _ <- assert (length ups <=? length points)%nat;
    do _ <- assert (length imap =? n)%nat;
    Ok (ups, imap).

  (* tessellateDegenerate, TessellatorInline.hh lines 101-173.  tess is the tessellator's own
     tessellate, unbounded or with its boundary already supplied; box_of the points the bounding
     box is computed from (the generators, line 111, or the boundary, line 163). *)
  Definition tessellateDegenerate {M} (D : nat) (big : Q) (tess : list Q -> res M) (box_of points : list Q) (tol : Q) :
      res (M * list nat) :=
    do (xmin, xmax) <- local_box D big box_of;
    do (ups, imap) <- uniquePoints D points xmin xmax tol;
    do mesh <- tess ups;
    Ok (mesh, imap).
  (* lines 130-145: the box is given *)
  Definition tessellateDegenerateBox {M} (D : nat) (tess : list Q -> res M) (points low high : list Q) (tol : Q) :
      res (M * list nat) :=
    do (ups, imap) <- uniquePoints D points low high tol;
    do mesh <- tess ups;
    Ok (mesh, imap).
End Hasher.

(* ---- mortonOrderIndices.hh ---- *)
(* KeyTraits.cc: the constants *)
Record traits := mkTraits { key : keyty; numbits1d : nat; maxKey1d : Z; maxKey : Z }.
Definition int_traits : traits := mkTraits int_key 32 (Z.quot (2 ^ 31 - 1) 2) (Z.quot (2 ^ 31 - 1) 2).

(* one round of the loop, lines 38-41 and 63-67: the coordinates xs are shifted by i, i+1, ... *)
Fixpoint interleave_terms (k : keyty) (xs : list Z) (mask i : Z) : res Z :=
  match xs with
  | [] => Ok 0
  | x :: t => do s <- shl k (Z.land x mask) i;
              do r <- interleave_terms k t mask (i + 1);
              Ok (kadd k s r)
  end.
(* hashPosition, lines 25-46 (two coordinates) and 49-72 (three) *)
Definition morton (T : traits) (xs : list Z) : res Z :=
  do _ <- assert (forallb (fun x => x <=? maxKey1d T) xs);
  do (r, _) <- mfold (fun '(result, mask) i =>
        do s <- interleave_terms (key T) xs mask (Z.of_nat i);
        do mask' <- shl (key T) mask 1;
        Ok (kadd (key T) result s, mask')) (seq 0 (numbits1d T)) (0, 1);
  do _ <- assert (r <=? maxKey T);
  Ok r.
(* mortonOrderIndices, lines 81-99 *)
Definition mortonOrderIndices (T : traits) (points : list (list Z)) : res (list Z) :=
  do r <- mmap (morton T) points;
  do _ <- assert (length r =? length points)%nat;
  Ok r.

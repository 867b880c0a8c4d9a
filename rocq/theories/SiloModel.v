(* Model of SiloWriter<2> and SiloWriter<3>, src/SiloWriter_2d.cc and src/SiloWriter_3d.cc, with
   src/SiloUtils.hh and src/SiloUtils.cc: what is put into a file, and the names of files and blocks
   in a parallel run.  A file is its list of named objects.  Sizes are taken to fit an int; options
   (cycle and time), making directories and the address of the first element of an empty vector are
   not modelled.  A field is the array its pointer points to. *)
From Coq Require Import String DecimalString Decimal.
From Verif Require Import Base SerializeModel MeshModel.
Local Open Scope string_scope.
Local Open Scope nat_scope.

Inductive centering := NodeCent | EdgeCent | FaceCent | ZoneCent.
Inductive obj (V : Type) :=
| Ucdmesh (coords : list (list V)) (nnodes nzones : nat)          (* DBPutUcdmesh *)
| Facelist (nfaces ndims : nat) (nodelist : list Z)                (* DBPutFacelist, one shape *)
| Zonelist (nzones ndims : nat) (nodelist : list Z) (shapesize shapecount : list nat)  (* DBPutZonelist2, all polygons *)
| PHZonelist (nodecnt : list nat) (nodelist : list Z) (extface : list bool) (facecnt : list nat) (facelist : list Z) (lo hi : Z) (* DBPutPHZonelist *)
| Compound (names : list string) (lengths : list Z) (values : list Z)    (* DBPutCompoundarray *)
| Ucdvar (values : list V) (cent : centering).                     (* DBPutUcdvar1 on "mesh" *)
Arguments Ucdmesh {V}. Arguments Facelist {V}. Arguments Zonelist {V}. Arguments PHZonelist {V}. Arguments Compound {V}. Arguments Ucdvar {V}.
Definition silo (V : Type) := list (string * obj V).

Section Write.
  Context {V : Type}.
  Definition zs (l : list nat) : list Z := map Z.of_nat l.
  Definition sizes {A} (l : list (list A)) : list Z := map (fun x => Z.of_nat (length x)) l.

  (* traverseNodes, SiloWriter_2d.cc lines 41-64; nodes starts empty *)
  Definition traverseNodes (m : mesh V) (i : nat) : res (list nat) :=
    do c <- get (cells m) i;
    do ns <- mmap (fun k => if (0 <=? k)%Z then do f <- get (faces m) (Z.to_nat k); get f 0
                            else do f <- get (faces m) (Z.to_nat (Z.lnot k)); get f 1) c;
    do a <- get ns 0;
    let ns := (ns ++ [a])%list in
    do _ <- assert (forallb (fun n => n <? length (nodes m) / 2) ns);
    Ok ns.

  (* component k of the coordinates, SiloWriter_2d.cc lines 245-252, SiloWriter_3d.cc lines 271-279 *)
  Definition coords (D k : nat) (m : mesh V) : res (list V) := mmap (fun i => get (nodes m) (D * i + k)) (seq 0 (length (nodes m) / D)).

  (* the cell-face data, SiloWriter_2d.cc lines 304-327; enc is the identity there and takes
     negative numbers to their complement in SiloWriter_3d.cc lines 339-364 *)
  Definition conn (enc : Z -> Z) (m : mesh V) : res (obj V) :=
    do fcs <- mmap (fun fc => do a <- get fc 0; Ok [a; a]) (faceCells m);
    let v := (sizes (cells m) ++ flat_map (map enc) (cells m) ++ List.concat fcs)%list in
    let l0 := Z.of_nat (length (cells m)) in
    let l2 := (Z.of_nat (length v) - 2 * Z.of_nat (length (faces m)))%Z in
    let l1 := (Z.of_nat (length v) - l2 - l0)%Z in
    Ok (Compound ["ncellfaces"; "cellfaces"; "facecells"] [l0; l1; l2] v).

  (* the convex hull, SiloWriter_2d.cc lines 332-350, SiloWriter_3d.cc lines 369-387 *)
  Definition hull (m : mesh V) : obj V :=
    let fs := facets (convexHull m) in
    let v := (Z.of_nat (length fs) :: sizes fs ++ List.concat fs)%list in
    let l0 := 1%Z in let l1 := Z.of_nat (length fs) in
    Compound ["nfacets"; "nfacetnodes"; "facetnodes"] [l0; l1; (Z.of_nat (length v) - l0 - l1)%Z] v.

  (* writeTagsToFile, SiloUtils.cc lines 22-66: the names of the elements stay empty *)
  Definition tagList (c : centering) : string := match c with NodeCent => "node_tags" | EdgeCent => "edge_tags" | FaceCent => "face_tags" | ZoneCent => "cell_tags" end.
  Definition writeTags (tags : list (string * list Z)) (c : centering) : silo V :=
    match tags with [] => [] | _ => [(tagList c, Compound (map (fun _ => "") tags) (map (fun t => Z.of_nat (length (snd t))) tags) (flat_map snd tags))] end.

  (* writeFieldsToFile, SiloUtils.hh lines 19-43: n values are read from each array *)
  Definition writeFields (fields : list (string * list V)) (n : nat) (c : centering) : res (silo V) :=
    mmap (fun f => do v <- mmap (fun i => get (snd f) i) (seq 0 n); Ok (fst f, Ucdvar v c)) fields.

  (* the fields and tags, SiloWriter_2d.cc lines 352-364, SiloWriter_3d.cc lines 389-400 *)
  Record extras := mkExtras { nodeF : list (string * list V); edgeF : list (string * list V); faceF : list (string * list V); cellF : list (string * list V);
                              nodeT : list (string * list Z); edgeT : list (string * list Z); faceT : list (string * list Z); cellT : list (string * list Z) }.
  Definition writeExtras (D : nat) (m : mesh V) (e : extras) : res (silo V) :=
    do nf <- writeFields (nodeF e) (length (nodes m) / D) NodeCent;
    do ef <- writeFields (edgeF e) (length (faces m)) EdgeCent;
    do ff <- writeFields (faceF e) (length (faces m)) FaceCent;
    do cf <- writeFields (cellF e) (length (cells m)) ZoneCent;
    Ok (writeTags (nodeT e) NodeCent ++ writeTags (edgeT e) EdgeCent ++ writeTags (faceT e) FaceCent ++ writeTags (cellT e) ZoneCent ++ nf ++ ef ++ ff ++ cf)%list.

  (* SiloWriter<2>::write, lines 245-364 *)
  Definition write2 (m : mesh V) (e : extras) : res (silo V) :=
    do x <- coords 2 0 m; do y <- coords 2 1 m;
    do bs <- mmap (fun f => do ns <- get (faces m) f; do a <- get ns 0; do b <- get ns 1; Ok [a; b]) (boundaryFaces m);  (* lines 257-264 *)
    let nb := length (boundaryFaces m) in
    let nc := length (cells m) in
    do rings <- mmap (traverseNodes m) (seq 0 nc);                                                                     (* lines 274-292 *)
    let nodeList := flat_map (fun r => Z.of_nat (length r) :: zs r)%list rings in
    do cn <- conn (fun z => z) m;
    do ex <- writeExtras 2 m e;
    Ok ([("boundary_faces", Facelist nb 2 (zs (List.concat bs)));
         ("mesh", Ucdmesh [x; y] (length (nodes m) / 2) nc);
         ("mesh_zonelist", Zonelist nc 2 nodeList (repeat 0 nc) (repeat 1 nc));
         ("conn", cn); ("convexhull", hull m)] ++ ex)%list.

  (* SiloWriter<3>::write, lines 271-400 *)
  Definition write3 (m : mesh V) (e : extras) : res (silo V) :=
    do x <- coords 3 0 m; do y <- coords 3 1 m; do z <- coords 3 2 m;
    let nf := length (faces m) in
    let nc := length (cells m) in
    do flags <- mfold (fun fl f => do _ <- assert (f <? nf); set fl f true) (boundaryFaces m) (repeat false nf);       (* lines 297-305 *)
    do cn <- conn (fun z => if (z <? 0)%Z then Z.lnot z else z) m;
    do ex <- writeExtras 3 m e;
    Ok ([("mesh", Ucdmesh [x; y; z] (length (nodes m) / 3) nc);
         ("mesh_zonelist", PHZonelist (map (@length nat) (faces m)) (zs (List.concat (faces m))) flags
                                      (map (@length Z) (cells m)) (List.concat (cells m)) 0 (Z.of_nat nc - 1));
         ("conn", cn); ("convexhull", hull m)] ++ ex)%list.
End Write.
Arguments extras : clear implicits.

(* ---- names in a parallel run ---- *)
Definition dec (n : nat) : string := NilEmpty.string_of_uint (Nat.to_uint n).
(* snprintf with a buffer of 1024 *)
Definition fmt (s : string) : string := substring 0 1023 s.
(* SiloWriter_2d.cc lines 141-145, SiloWriter_3d.cc lines 166-170 *)
Definition strip (filePrefix : string) : string :=
  match index 0 ".silo" filePrefix with Some i => substring 0 i filePrefix | None => filePrefix end.

(* PMPIO_Init, PMPIO_GroupRank, PMPIO_RankInGroup: part of Silo (pmpio.h), as documented there: the
   nproc ranks are split into numFiles groups of consecutive ranks, the first ones larger by one if
   the division leaves a rest *)
Definition split_at (nproc nf : nat) : nat := (nproc mod nf) * (nproc / nf + 1).
Definition groupRank (nproc nf r : nat) : nat :=
  if r <? split_at nproc nf then r / (nproc / nf + 1) else nproc mod nf + (r - split_at nproc nf) / (nproc / nf).
Definition rankInGroup (nproc nf r : nat) : nat :=
  if r <? split_at nproc nf then r mod (nproc / nf + 1) else (r - split_at nproc nf) mod (nproc / nf).

Section Names.
  Context (directory filePrefix : string) (cycle : Z) (nproc nf : nat).
  (* SiloWriter_2d.cc lines 160-167, SiloWriter_3d.cc lines 185-192; all lines below are of SiloWriter_2d.cc *)
  Definition masterDir : string := if string_dec directory "" then fmt (filePrefix ++ "-" ++ dec nproc) else directory.
  Definition ending : string := (if (0 <=? cycle)%Z then "-" ++ dec (Z.to_nat cycle) else "") ++ ".silo".
  (* lines 191-215, 401 *)
  Definition groupDir (g : nat) : string := fmt (masterDir ++ "/" ++ dec g).
  Definition fileOf (r : nat) : string := fmt (groupDir (groupRank nproc nf r) ++ "/" ++ strip filePrefix ++ ending).
  Definition blockOf (r : nat) : string := fmt ("domain_" ++ dec (rankInGroup nproc nf r)).
  Definition numChunks : nat := nproc / nf.
  (* lines 402-417, 436: the names in the file of a group *)
  Definition groupMeshes : list string := map (fun i => fmt ("domain_" ++ dec i ++ "/mesh")) (seq 0 numChunks).
  (* lines 469-486, 505: the names in the master file; entry i * numChunks + c *)
  Definition masterMesh (i c : nat) : string := fmt (dec i ++ "/" ++ strip filePrefix ++ ending ++ ":/domain_" ++ dec c ++ "/mesh").
  Definition masterMeshes : list string := flat_map (fun i => map (masterMesh i) (seq 0 numChunks)) (seq 0 nf).
  (* lines 460-464 *)
  Definition masterFile : string := fmt (masterDir ++ "/" ++ strip filePrefix ++ ending).

  (* appendFieldNames, SiloUtils.hh lines 63-82 (master) and 45-59 (group): the state is fieldIndex and
     varNames; name is what is printed for a field *)
  Definition masterVar (i c : nat) (field : string) : string := fmt (dec i ++ "/" ++ strip filePrefix ++ ending ++ ":/domain_" ++ dec c ++ "/" ++ field).
  Definition groupVar (c : nat) (field : string) : string := fmt ("domain_" ++ dec c ++ "/" ++ field).
  Definition appendFieldNames (name : string -> string) (st : nat * list (list string)) (fields : list string) : res (nat * list (list string)) :=
    mfold (fun st f => do l <- get (snd st) (fst st); do vs <- set (snd st) (fst st) (l ++ [name f])%list; Ok (S (fst st), vs)) fields st.
  (* lines 406-409, 418-424 and 471-474, 488-494: one round for each entry of names *)
  Definition varNames (names : list (string -> string)) (maps : list (list string)) : res (list (list string)) :=
    mfold (fun vs name => do st <- mfold (appendFieldNames name) maps (0, vs); Ok (snd st)) names (repeat [] (length (List.concat maps))).
  (* lines 438-442, 507-511 and putMultivarInFile, SiloUtils.hh lines 86-102: the state is fieldIndex
     and what has been put *)
  Definition putMultivar (names : list (list string)) (st : nat * list (string * list string)) (fields : list string) : res (nat * list (string * list string)) :=
    mfold (fun st f => do l <- get names (fst st); Ok (S (fst st), snd st ++ [(f, l)])%list) fields st.
  Definition multivars (names : list (string -> string)) (maps : list (list string)) : res (list (string * list string)) :=
    do vs <- varNames names maps; do st <- mfold (putMultivar vs) maps (0, []); Ok (snd st).
  (* the fields of the four maps in the file of a group and in the master file *)
  Definition groupVars : list (list string) -> res (list (string * list string)) := multivars (map groupVar (seq 0 numChunks)).
  Definition masterVars : list (list string) -> res (list (string * list string)) :=
    multivars (flat_map (fun i => map (masterVar i) (seq 0 numChunks)) (seq 0 nf)).
End Names.

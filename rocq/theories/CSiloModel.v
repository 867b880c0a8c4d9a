(* Model of the C interface to the Silo files: polytope_c/polytope_write_silo.cc and
   polytope_c/polytope_read_silo.cc.  SiloWriter::write and SiloReader::read are arguments; the
   tessellation goes through fill_tessellation, which is modelled in CTessModel.v, and is left out here.
   Names are C strings; the numbers of fields and tags and the sizes of tags are not negative.
   Leaving an array, reading an entry that was not written and following a pointer read outside the
   variable of the caller are undefined behaviour (UB). *)
From Coq Require Import String QArith.
From Verif Require Import Base HullModel VoroModel.
Local Open Scope nat_scope.

(* std::map<std::string, A>: the entries in the order of their keys, bytes compared as unsigned *)
Definition cmap (A : Type) := list (string * A).
(* m[k] = v *)
Fixpoint put {A} (m : cmap A) (k : string) (v : A) : cmap A :=
  match m with
  | [] => [(k, v)]
  | (k', v') :: m' => match String.compare k k' with Lt => (k, v) :: m | Eq => (k', v) :: m' | Gt => (k', v') :: put m' k v end
  end.

(* vectors made by new vector<int>, each live until it is deleted *)
Definition vectors := list (option (list Z)).
(* delete p *)
Definition del (h : vectors) (a : nat) : res vectors :=
  match nth_error h a with Some (Some _) => Ok (upd h a None) | _ => UB end.

(* the arguments for one kind of element: how many fields, their names, the pointers to them; how many
   tags, their names, their sizes and the arrays *)
Record c_args {P} := mkArgs { nf : nat; fnames : list string; fptrs : list P;
                              nt : nat; tnames : list string; tsizes : list nat; tarrays : list (list Z) }.
Arguments c_args : clear implicits.
(* what is handed to SiloWriter::write for it: the map of fields, the map of tags *)
Definition handed (P : Type) := (cmap P * cmap (list Z))%type.

Section Write.
  Context {P : Type}.
  (* filling the fields, polytope_write_silo.cc lines 73-81 *)
  Definition fill_fields (a : c_args P) : res (cmap P) :=
    mfold (fun m i => do k <- get (fnames a) i; do p <- get (fptrs a) i; Ok (put m k p)) (seq 0 (nf a)) [].
  (* filling the tags, lines 85-108: the vectors made so far, and the map to their addresses *)
  Definition fill_tags (a : c_args P) (h : vectors) : res (vectors * cmap nat) :=
    mfold (fun s i =>
      let '(h, m) := s in
      do n <- get (tsizes a) i; do src <- get (tarrays a) i;
      do v <- mmap (fun j => get src j) (seq 0 n);
      do k <- get (tnames a) i;
      Ok (h ++ [Some v], put m k (length h))) (seq 0 (nt a)) (h, []).
  (* what write sees through the pointers *)
  Definition seen (h : vectors) (m : cmap nat) : res (cmap (list Z)) :=
    mmap (fun e => match nth_error h (snd e) with Some (Some v) => Ok (fst e, v) | _ => UB end) m.
  (* cleaning up, lines 139-158 *)
  Definition clean (h : vectors) (m : cmap nat) : res vectors := mfold del (map snd m) h.

  (* polytope_write_silo_with_tags, lines 30-159: what was handed over for the nodes, edges, faces and
     cells, and the vectors afterwards.  dim is mesh->dimension. *)
  Definition write_silo_with_tags (dim : nat) (nodes edges faces cells : c_args P)
    : res ((handed P * handed P * handed P * handed P) * vectors) :=
    do f1 <- fill_fields nodes; do f2 <- fill_fields edges; do f3 <- fill_fields faces; do f4 <- fill_fields cells;
    do r1 <- fill_tags nodes []; let '(h, t1) := r1 in
    do r2 <- fill_tags edges h; let '(h, t2) := r2 in
    do r3 <- fill_tags faces h; let '(h, t3) := r3 in
    do r4 <- fill_tags cells h; let '(h, t4) := r4 in
    do _ <- assert ((dim =? 2) || (dim =? 3));
    do v1 <- seen h t1; do v2 <- seen h t2; do v3 <- seen h t3; do v4 <- seen h t4;
    do h <- clean h t1; do h <- clean h t2; do h <- clean h t3; do h <- clean h t4;
    Ok (((f1, v1), (f2, v2), (f3, v3), (f4, v4)), h).
  (* polytope_write_silo, lines 161-194 *)
  Definition no_tags (a : c_args P) : c_args P := mkArgs _ (nf a) (fnames a) (fptrs a) 0 [] [] [].
  Definition write_silo (dim : nat) (nodes edges faces cells : c_args P) :=
    write_silo_with_tags dim (no_tags nodes) (no_tags edges) (no_tags faces) (no_tags cells).
End Write.

(* An array behind a pointer of the caller, its entries possibly not written yet *)
Definition slots (A : Type) := list (option A).
(* *p = malloc(N entries) *)
Definition fresh {A} (n : nat) : slots A := repeat None n.
(* *p[i] = x, which is *(p[i]) = x: p is the address of one variable of the caller, so p[0] is that
   variable and p[i] for i > 0 is outside of it; the entry written is the first one of the array *)
Definition store {A} (v : slots A) (i : nat) (x : A) : res (slots A) :=
  match i with 0 => set v 0 (Some x) | S _ => UB end.

(* the fields: number, names and values *)
Record c_fields := mkFields { num_fields : nat; field_names : slots string; field_values : slots (list Q) }.
(* the tags of one kind of element: number, names, sizes and values *)
Record c_tags := mkTags { num_tags : nat; tag_names : slots string; tag_sizes : slots nat; tag_values : slots (list Z) }.

(* parsing the fields, polytope_read_silo.cc lines 79-93; strcpy and copy go through the same pointer *)
Definition parse_fields (fields : cmap (list Q)) : res c_fields :=
  let n := length fields in
  do r <- mfold (fun s e =>
      let '(names, vals, index) := s in
      do names <- store names index (fst e); do vals <- store vals index (snd e);
      Ok (names, vals, index + 1)) fields (fresh n, fresh n, 0);
  let '(names, vals, _) := r in Ok (mkFields n names vals).
(* parsing the tags of one kind of element, lines 96-115, 117-134, 136-153 and 155-172: n is the number
   of tags, but the loop goes over the fields; the values are converted from double to int *)
Definition parse_tags (fields : cmap (list Q)) (n : nat) : res c_tags :=
  do r <- mfold (fun s e =>
      let '(names, sizes, vals, index) := s in
      do names <- store names index (fst e); do sizes <- store sizes index (length (snd e));
      do v <- mmap as_int (snd e); do vals <- store vals index v;
      Ok (names, sizes, vals, index + 1)) fields (fresh n, fresh n, fresh n, 0);
  let '(names, sizes, vals, _) := r in Ok (mkTags n names sizes vals).

(* What SiloReader::read found: the fields, and the tags of nodes, edges, faces and cells *)
Record found := mkFound { f_fields : cmap (list Q); f_node : cmap (list Z); f_edge : cmap (list Z); f_face : cmap (list Z); f_cell : cmap (list Z) }.
(* polytope_read_silo_with_tags, lines 24-174: which tags the caller asked for, by pointers that are not NULL *)
Definition read_silo_with_tags (dim : nat) (found : found) (ask_node ask_edge ask_face ask_cell : bool)
  : res (c_fields * option c_tags * option c_tags * option c_tags * option c_tags) :=
  do _ <- assert ((dim =? 2) || (dim =? 3));
  let fs := f_fields found in
  do f <- parse_fields fs;
  let part (ask : bool) (t : cmap (list Z)) := if ask then do r <- parse_tags fs (length t); Ok (Some r) else Ok None in
  do t1 <- part ask_node (f_node found); do t2 <- part ask_edge (f_edge found);
  do t3 <- part ask_face (f_face found); do t4 <- part ask_cell (f_cell found);
  Ok (f, t1, t2, t3, t4).
(* polytope_read_silo, lines 176-196 *)
Definition read_silo (dim : nat) (found : found) : res c_fields :=
  do r <- read_silo_with_tags dim found false false false false;
  let '(f, _, _, _, _) := r in Ok f.

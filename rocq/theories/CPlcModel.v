(* Model of the C interface to piecewise linear complexes, polytope_c/polytope_plc.cc.  malloc and new
   always succeed.  A handle is the C struct, whose two pointers are NULL or point to a C++ PLC. *)
From Verif Require Import Base SerializeModel MeshModel.

(* struct polytope_plc_t, lines 10-14 *)
Record handle := mkHandle { plc2 : option plc; plc3 : option plc }.

(* polytope_plc_new, lines 17-32 *)
Definition plcNew (dimension : Z) : res handle :=
  do _ <- assert ((dimension =? 2)%Z || (dimension =? 3)%Z);
  Ok (if (dimension =? 2)%Z then mkHandle (Some (mkPLC [] [])) None else mkHandle None (Some (mkPLC [] []))).

(* the reference every function starts with: (plc->plc2 != NULL) ? plc->plc2 : plc->plc3 *)
Definition chosen (h : handle) : res plc :=
  match plc2 h, plc3 h with Some p, _ => Ok p | None, Some p => Ok p | None, None => UB end.
Definition store (h : handle) (p : plc) : handle :=
  match plc2 h with Some _ => mkHandle (Some p) (plc3 h) | None => mkHandle None (Some p) end.

(* the conversion of an int to size_t *)
Definition size_t (i : Z) : Z := (i mod 2 ^ 64)%Z.
(* POLY_ASSERT(i < l.size()); l[i] *)
Definition at_ {A} (l : list A) (i : Z) : res A :=
  do _ <- assert (size_t i <? Z.of_nat (length l))%Z;
  get l (Z.to_nat (size_t i)).
Definition at_upd {A} (l : list A) (i : Z) (f : A -> A) : res (list A) :=
  do x <- at_ l i;
  set l (Z.to_nat (size_t i)) (f x).

(* polytope_plc_add_facet, lines 47-53 *)
Definition addFacet (h : handle) : res (handle * Z) :=
  do p <- chosen h;
  let fs := facets p ++ [[]] in Ok (store h (mkPLC fs (holes p)), Z.of_nat (length fs) - 1)%Z.
(* polytope_plc_add_facet_node, lines 57-64 *)
Definition addFacetNode (h : handle) (facet node : Z) : res handle :=
  do p <- chosen h;
  do fs <- at_upd (facets p) facet (fun f => f ++ [node]);
  Ok (store h (mkPLC fs (holes p))).
(* polytope_plc_add_hole, lines 68-74 *)
Definition addHole (h : handle) : res (handle * Z) :=
  do p <- chosen h;
  let hs := holes p ++ [[]] in Ok (store h (mkPLC (facets p) hs), Z.of_nat (length hs) - 1)%Z.
(* polytope_plc_add_hole_facet, lines 78-86 *)
Definition addHoleFacet (h : handle) (hole : Z) : res (handle * Z) :=
  do p <- chosen h;
  do hs <- at_upd (holes p) hole (fun fs => fs ++ [[]]);
  do fs <- get hs (Z.to_nat (size_t hole));
  Ok (store h (mkPLC (facets p) hs), Z.of_nat (length fs) - 1)%Z.
(* polytope_plc_add_hole_facet_node, lines 90-99 *)
Definition addHoleFacetNode (h : handle) (hole facet node : Z) : res handle :=
  do p <- chosen h;
  do fs <- at_ (holes p) hole;
  do fs' <- at_upd fs facet (fun f => f ++ [node]);
  do hs <- set (holes p) (Z.to_nat (size_t hole)) fs';
  Ok (store h (mkPLC (facets p) hs)).
(* polytope_plc_num_facet_nodes, lines 103-110 *)
Definition numFacetNodes (h : handle) (facet : Z) : res Z :=
  do p <- chosen h; do f <- at_ (facets p) facet; Ok (Z.of_nat (length f)).
(* std::copy to the caller's array, which must have room *)
Definition copy_to (f buf : list Z) : res (list Z) :=
  if length f <=? length buf then Ok (f ++ skipn (length f) buf) else UB.
(* polytope_plc_get_facet_nodes, lines 114-121 *)
Definition getFacetNodes (h : handle) (facet : Z) (buf : list Z) : res (list Z) :=
  do p <- chosen h; do f <- at_ (facets p) facet; copy_to f buf.
(* polytope_plc_num_hole_facets, lines 125-132 *)
Definition numHoleFacets (h : handle) (hole : Z) : res Z :=
  do p <- chosen h; do fs <- at_ (holes p) hole; Ok (Z.of_nat (length fs)).
(* polytope_plc_num_hole_facet_nodes, lines 136-145 *)
Definition numHoleFacetNodes (h : handle) (hole facet : Z) : res Z :=
  do p <- chosen h; do fs <- at_ (holes p) hole; do f <- at_ fs facet; Ok (Z.of_nat (length f)).
(* polytope_plc_get_hole_facet_nodes, lines 149-158 *)
Definition getHoleFacetNodes (h : handle) (hole facet : Z) (buf : list Z) : res (list Z) :=
  do p <- chosen h; do fs <- at_ (holes p) hole; do f <- at_ fs facet; copy_to f buf.
(* polytope_plc_clear, lines 162-168, and PLC::clear, src/PLC.hh lines 32-35 *)
Definition plcClear (h : handle) : res handle :=
  match plc2 h, plc3 h with
  | Some _, q => Ok (mkHandle (Some (mkPLC [] [])) q)
  | None, Some _ => Ok (mkHandle None (Some (mkPLC [] [])))
  | None, None => UB
  end.
(* polytope_plc_empty, lines 172-178 *)
Definition plcEmpty (h : handle) : res bool := do p <- chosen h; Ok (plc_empty p).
(* polytope_plc_valid, lines 182-188 *)
Definition plcValid (h : handle) : res bool :=
  match plc2 h, plc3 h with Some p, _ => Ok (plc_valid 2 p) | None, Some p => Ok (plc_valid 3 p) | None, None => UB end.

(* fill_plc, lines 220-233 and 237-250; the pointer of the other dimension would be NULL *)
Definition fillC (D : Z) (p : plc) (h : handle) : res handle :=
  if (D =? 2)%Z then match plc2 h with Some _ => Ok (mkHandle (Some p) (plc3 h)) | None => UB end
  else match plc3 h with Some _ => Ok (mkHandle (plc2 h) (Some p)) | None => UB end.
Definition fillCpp (D : Z) (h : handle) : res plc :=
  if (D =? 2)%Z then match plc2 h with Some p => Ok p | None => UB end
  else match plc3 h with Some p => Ok p | None => UB end.

(* A caller's history: the calls that change the PLC, one after the other *)
Inductive call := AddFacet | AddFacetNode (facet node : Z) | AddHole | AddHoleFacet (hole : Z)
  | AddHoleFacetNode (hole facet node : Z) | Clear.
Definition do_call (h : handle) (c : call) : res handle :=
  match c with
  | AddFacet => do r <- addFacet h; Ok (fst r)
  | AddFacetNode f n => addFacetNode h f n
  | AddHole => do r <- addHole h; Ok (fst r)
  | AddHoleFacet k => do r <- addHoleFacet h k; Ok (fst r)
  | AddHoleFacetNode k f n => addHoleFacetNode h k f n
  | Clear => plcClear h
  end.
Definition history (D : Z) (cs : list call) : res handle :=
  do h <- plcNew D; mfold do_call cs h.

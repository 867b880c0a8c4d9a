(* What hashing positions, merging points and interleaving bits should give. *)
From Verif Require Import Base PLCSpec.
From Coq Require Import QArith.
Local Open Scope Z_scope.

Definition coord (p : list Q) (j : nat) : Q := nth j p 0%Q.
(* p lies in the closed box [lo, hi] *)
Definition Inside (D : nat) (lo hi p : list Q) : Prop :=
  forall j, (j < D)%nat -> (coord lo j <= coord p j <= coord hi j)%Q.

(* the grid over an axis: 2^31 (2D) or 2^21 (3D) cells, none smaller than the tolerance or
   the machine epsilon *)
Definition cells1d (D : nat) : Z := match D with 2%nat => 2 ^ 31 | _ => 2 ^ 21 end.
Record GridStep (D : nat) (lo hi tol s : Q) : Prop := {
  gs_res : ((hi - lo) / inject_Z (cells1d D - 1) <= s)%Q;
  gs_tol : (tol <= s)%Q;
  gs_eps : (1 # 2 ^ 52 <= s)%Q;
  gs_least : (s == (hi - lo) / inject_Z (cells1d D - 1) \/ s == tol \/ s == 1 # 2 ^ 52)%Q }.
(* p is in cell number zs of the grid over the box *)
Definition InCell (D : nat) (lo hi : list Q) (tol : Q) (p : list Q) (zs : list Z) : Prop :=
  length zs = D /\ forall j z, nth_error zs j = Some z -> 0 <= z < cells1d D /\
    exists s, GridStep D (coord lo j) (coord hi j) tol s /\
      (coord lo j + inject_Z z * s <= coord p j < coord lo j + (inject_Z z + 1) * s)%Q.
Definition SameCell (D : nat) (lo hi : list Q) (tol : Q) (p p' : list Q) : Prop :=
  exists zs, InCell D lo hi tol p zs /\ InCell D lo hi tol p' zs.

(* an inner box in an outer box *)
Record Nested (D : nat) (li hi lo ho : list Q) : Prop := {
  ne_lo : forall j, (j < D)%nat -> (coord lo j <= coord li j)%Q;
  ne_hi : forall j, (j < D)%nat -> (coord hi j <= coord ho j)%Q;
  ne_in : forall j, (j < D)%nat -> (coord li j <= coord hi j)%Q;
  ne_3d : D = 3%nat -> forall j, (j < D)%nat -> (coord li j < coord hi j)%Q }.

(* the grid is that of the inner box for positions inside it, else that of the outer box *)
Definition SameCell2 (D : nat) (li hi lo ho : list Q) (tol : Q) (p p' : list Q) : Prop :=
  (Inside D li hi p /\ Inside D li hi p' /\ SameCell D li hi tol p p') \/
  (~ Inside D li hi p /\ ~ Inside D li hi p' /\ SameCell D lo ho tol p p').

(* ups are the points of pts up to the relation same, imap sends each point to its
   representative: the first point it is related to *)
Record MergedBy (D : nat) (pts : list Q) (same : nat -> nat -> Prop) (ups : list Q) (imap : list nat) : Prop := {
  mb_len : length imap = (length pts / D)%nat;
  mb_range : forall i k, nth_error imap i = Some k -> (D * k + D <= length ups)%nat;
  mb_same : forall i j k l, nth_error imap i = Some k -> nth_error imap j = Some l -> (k = l <-> same i j);
  mb_first : forall k, (D * k < length ups)%nat -> exists i, nth_error imap i = Some k /\
     vertex D ups k = vertex D pts i /\ (forall j l, (j < i)%nat -> nth_error imap j = Some l -> (l < k)%nat) }.

(* What checkDistributedTessellation is to decide. *)
From Verif Require Import Base SerializeModel SerializeSpec.
From Coq Require Import Sorted.

(* what one rank has: a hashed position for each node, its neighbors, the nodes shared with each *)
Record local (t : ty) := mkLocal { hashed : list (denote t); nbrs : list nat; lists : list (list nat) }.
Arguments mkLocal {t}. Arguments hashed {t}. Arguments nbrs {t}. Arguments lists {t}.

(* how often a position occurs *)
Definition times (c : list Z) (l : list (list Z)) : nat := count_occ (list_eq_dec Z.eq_dec) l c.

Section Spec.
  Context {t : ty} (key : denote t -> list Z).
  (* the positions of the nodes of a rank *)
  Definition positions (x : local t) : list (list Z) := map key (hashed x).
  (* ks are the positions, in order, of the nodes that x lists for neighbor s *)
  Definition ListsFor (x : local t) (s : nat) (ks : list (list Z)) : Prop :=
    exists i l hs, nth_error (nbrs x) i = Some s /\ nth_error (lists x) i = Some l /\
      Forall2 (fun j h => nth_error (hashed x) j = Some h) l hs /\ ks = map key hs.

  Record Good (n : nat) (L : nat -> local t) : Prop := {
    (* neighbors are mutual *)
    gd_mutual : forall r s, r < n -> s < n -> In s (nbrs (L r)) -> In r (nbrs (L s));
    (* two neighbors list the same positions in the same order *)
    gd_same : forall r s ks ks', r < n -> s < n -> ListsFor (L r) s ks -> ListsFor (L s) r ks' -> ks = ks';
    (* two ranks are neighbors exactly if they have a position in common *)
    gd_nbrs : forall r s, r < n -> s < n -> r <> s -> (In s (nbrs (L r)) <-> exists c, In c (positions (L r)) /\ In c (positions (L s)));
    (* and then each common position is listed, as often as both have it *)
    gd_all : forall r s ks c, r < n -> s < n -> r <> s -> ListsFor (L r) s ks -> times c ks = Nat.min (times c (positions (L r))) (times c (positions (L s))) }.

  (* the data of a rank make sense by themselves and are not too big for unsigned sizes *)
  Record Sane (x : local t) : Prop := {
    sa_sorted : StronglySorted lt (nbrs x);
    sa_lists : length (lists x) = length (nbrs x);
    sa_ids : forall i l j, nth_error (lists x) i = Some l -> In j l -> j < length (hashed x);
    sa_fits : Forall (fits t) (hashed x);
    sa_size : (Z.of_nat (length (nbrs x)) < 2 ^ 32)%Z /\ (Z.of_nat (length (hashed x)) < 2 ^ 32)%Z /\ (Z.of_nat (4 + length (flat_map (serialize t) (hashed x))) < 2 ^ 32)%Z;
    sa_list_size : forall i l hs, nth_error (lists x) i = Some l -> Forall2 (fun j h => nth_error (hashed x) j = Some h) l hs ->
      (Z.of_nat (length l) < 2 ^ 32)%Z /\ (Z.of_nat (4 + length (flat_map (serialize t) hs)) < 2 ^ 32)%Z }.
  (* whenever r lists s as its k-th neighbor and the sizes of their lists differ, s has a k-th list *)
  Definition Readable (n : nat) (L : nat -> local t) : Prop := forall r s k i l l', r < n -> s < n ->
    nth_error (nbrs (L r)) k = Some s -> nth_error (lists (L r)) k = Some l ->
    nth_error (nbrs (L s)) i = Some r -> nth_error (lists (L s)) i = Some l' -> length l <> length l' -> k < length (lists (L s)).
End Spec.

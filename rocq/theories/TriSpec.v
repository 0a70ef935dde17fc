(* What the tables of a simplicial mesh should contain, stated on the list of cells alone. *)
From Coq Require Import List Arith Sorted.
Import ListNotations.

(* a facet of a cell: all of its vertices but one, written in increasing order *)
Definition facet_of (e c : list nat) : Prop := StronglySorted lt e /\ S (length e) = length c /\ incl e c.

(* every cell has npc distinct vertices *)
Definition simplicial (npc : nat) (cells : list (list nat)) : Prop :=
  forall c, In c cells -> length c = npc /\ NoDup c.

(* facet e belongs to cell number i *)
Definition cell_has (cells : list (list nat)) (i : nat) (e : list nat) : Prop :=
  exists c, nth_error cells i = Some c /\ facet_of e c.

(* no facet belongs to three cells *)
Definition conforming (cells : list (list nat)) : Prop :=
  forall e i1 i2 i3, cell_has cells i1 e -> cell_has cells i2 e -> cell_has cells i3 e ->
    i1 = i2 \/ i1 = i3 \/ i2 = i3.

(* cells i and i' share the facet of i opposite to its vertex number p *)
Definition adjacent_opposite (cells : list (list nat)) (i p i' : nat) : Prop :=
  i' <> i /\ exists c v e, nth_error cells i = Some c /\ nth_error c p = Some v /\
    facet_of e c /\ ~ In v e /\ cell_has cells i' e.

(* an edge of a cell: two distinct vertices of it, in increasing order *)
Definition edge_in_cell (e c : list nat) : Prop := exists a b, e = [a; b] /\ a < b /\ In a c /\ In b c.
Definition cell_has_edge (cells : list (list nat)) (i : nat) (e : list nat) : Prop :=
  exists c, nth_error cells i = Some c /\ edge_in_cell e c.

(* reading a table stored as rows *)
Definition entry {A} (m : list (list A)) (i j : nat) (v : A) : Prop :=
  exists r, nth_error m i = Some r /\ nth_error r j = Some v.

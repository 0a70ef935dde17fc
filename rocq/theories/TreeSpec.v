(* Specification of binary trees: mathematical trees, traversals, and what it means for a heap
   to hold a tree. *)
From Coq Require Import Permutation.
From Verif Require Import Base TreeModel.

(* a mathematical tree whose nodes carry their address and datum *)
Inductive mtree (T : Type) := MLeaf | MNode (a : addr) (x : T) (l r : mtree T).
Arguments MLeaf {T}. Arguments MNode {T}.

Section Spec.
Context {T : Type}.
Implicit Types t l r : mtree T.

Fixpoint addrs t : list addr := match t with MLeaf => [] | MNode a _ l r => a :: addrs l ++ addrs r end.
(* contents in root-left-right order and in left-root-right order *)
Fixpoint preorder t : list T := match t with MLeaf => [] | MNode _ x l r => x :: preorder l ++ preorder r end.
Fixpoint inorder t : list T := match t with MLeaf => [] | MNode _ x l r => inorder l ++ x :: inorder r end.
Fixpoint msize t : nat := match t with MLeaf => 0 | MNode _ _ l r => S (msize l + msize r) end.
Fixpoint height t : nat := match t with MLeaf => 0 | MNode _ _ l r => S (Nat.max (height l) (height r)) end.
(* the nodes at distance k from the root, left to right *)
Fixpoint level (k : nat) t {struct t} : list addr :=
  match t with
  | MLeaf => []
  | MNode a _ l r => match k with 0 => [a] | S k' => level k' l ++ level k' r end
  end.
Definition level_order t : list addr := flat_map (fun k => level k t) (seq 0 (height t)).
Fixpoint mleaves t : list addr :=
  match t with
  | MLeaf => []
  | MNode a _ MLeaf MLeaf => [a]
  | MNode _ _ l r => mleaves l ++ mleaves r
  end.
(* shape and data, without addresses *)
Inductive shape := SLeaf | SNode (x : T) (l r : shape).
Fixpoint shape_of t : shape := match t with MLeaf => SLeaf | MNode _ x l r => SNode x (shape_of l) (shape_of r) end.

Definition raddr t : option addr := match t with MLeaf => None | MNode a _ _ _ => Some a end.

(* the heap holds t, at depth d, in the node fields *)
Fixpoint holds (h : heap T) (d : nat) t : Prop :=
  match t with
  | MLeaf => True
  | MNode a x l r =>
      (exists par, cells h a = Some (mknode x par (raddr l) (raddr r) d)) /\
      holds h (S d) l /\ holds h (S d) r
  end.
(* every node's parent pointer names its parent *)
Fixpoint parents_ok (h : heap T) (par : option addr) t : Prop :=
  match t with
  | MLeaf => True
  | MNode a _ l r =>
      (exists n, cells h a = Some n /\ nparent n = par) /\
      parents_ok h (Some a) l /\ parents_ok h (Some a) r
  end.
(* the heap is sane: nothing allocated at or above [next] *)
Definition sane (h : heap T) : Prop := forall a, next h <= a -> cells h a = None.
(* the tree object o holds t in h *)
Definition owns (h : heap T) (o : tree) t : Prop :=
  root o = raddr t /\ n_nodes o = msize t /\ NoDup (addrs t) /\ holds h 0 t.

(* search order produced by a comparator: less x y decides "x goes left of y" *)
Fixpoint search_tree (less : T -> T -> bool) t : Prop :=
  match t with
  | MLeaf => True
  | MNode _ y l r =>
      Forall (fun x => less x y = true) (preorder l) /\
      Forall (fun x => less x y = false) (preorder r) /\
      search_tree less l /\ search_tree less r
  end.

(* the same for a comparator that also sees the depth of the node; d is the depth of t's root *)
Fixpoint ordered_tree (less : T -> nat -> T -> bool) (d : nat) t : Prop :=
  match t with
  | MLeaf => True
  | MNode _ y l r =>
      Forall (fun x => less x d y = true) (preorder l) /\
      Forall (fun x => less x d y = false) (preorder r) /\
      ordered_tree less (S d) l /\ ordered_tree less (S d) r
  end.

(* x is stored at a node that has at least one child *)
Fixpoint stored_inner (x : T) t : Prop :=
  match t with
  | MLeaf => False
  | MNode _ y MLeaf MLeaf => False
  | MNode _ y l r => y = x \/ stored_inner x l \/ stored_inner x r
  end.
End Spec.

(* Model of fdaPDE/utils/data_structures/binary_tree.h: BinaryTree<T> and BST<T> on an
   explicit heap of nodes. *)
From Verif Require Import Base.

Section Tree.
Variable T : Type.

(* memory of binary_tree.h:30-40 *)
Definition addr := nat.

(* node_type (30-38) *)
Record node := mknode { ndata : T; nparent : option addr; nleft : option addr;
                        nright : option addr; ndepth : nat }.

(* the heap: [None] is unallocated or freed memory; [next] bounds all allocated addresses.
   Addresses are never reused (a simplification: reuse would only hide dangling pointers). *)
(* memory of binary_tree.h:30-40 *)
Record heap := mkheap { cells : addr -> option node; next : addr }.
(* memory of binary_tree.h:30-40 *)
Definition empty_heap : heap := mkheap (fun _ => None) 0.

(* p->field: dereferencing null or freed memory is UB [binary_tree.h:66-70, 83-90] *)
Definition deref (h : heap) (p : option addr) : Res node :=
  match p with
  | None => UB
  | Some a => match cells h a with Some n => Ok n | None => UB end
  end.
(* binary_tree.h:181, 250 *)
Definition store (h : heap) (a : addr) (n : node) : heap :=
  mkheap (fun b => if b =? a then Some n else cells h b) (next h).
(* new node_type(...) [binary_tree.h:43, 171, 181, 208, 250, 262] *)
Definition alloc (h : heap) (n : node) : heap * addr :=
  (mkheap (fun b => if b =? next h then Some n else cells h b) (S (next h)), next h).
(* delete p: freeing freed memory is UB [binary_tree.h:229] *)
Definition free (h : heap) (a : addr) : Res heap :=
  match cells h a with
  | Some _ => Ok (mkheap (fun b => if b =? a then None else cells h b) (next h))
  | None => UB
  end.

(* BinaryTree (288-289) *)
Record tree := mktree { root : option addr; n_nodes : nat }.
Definition empty_tree : tree := mktree None 0.                         (* 41 *)
Definition is_empty (t : tree) : bool := n_nodes t =? 0.               (* 163 *)
(* BinaryTree(const T& root_data) (43) *)
Definition tree_of (h : heap) (x : T) : heap * tree :=
  let (h', a) := alloc h (mknode x None None None 0) in (h', mktree (Some a) 1).

Definition opt_list (p : option addr) : list addr := match p with Some a => [a] | None => [] end.

(* dfs_iterator (75-92): current node and stack; the constructor pushes the (possibly null) node,
   null never gets dereferenced because node == nullptr is the end iterator *)
Definition dfs_next (h : heap) (cur : addr) (stack : list addr) : Res (option addr * list addr) :=
  n <- deref h (Some cur) ;;
  let stack' := opt_list (nleft n) ++ opt_list (nright n) ++ tl stack in
  match stack' with
  | [] => Ok (None, [])
  | a :: _ => Ok (Some a, stack')
  end.
(* for (it = dfs_begin(pos); it != dfs_end(); ++it) visit(it) : the visited addresses [a client of binary_tree.h:75-96] *)
Fixpoint dfs_loop (h : heap) (fuel : nat) (cur : option addr) (stack : list addr) : Res (list addr) :=
  match cur with
  | None => Ok []
  | Some a =>
      match fuel with
      | 0 => OutOfFuel
      | S f => st <- dfs_next h a stack ;;
               rest <- dfs_loop h f (fst st) (snd st) ;; Ok (a :: rest)
      end
  end.
(* a client of binary_tree.h:75-96 *)
Definition dfs (h : heap) (fuel : nat) (pos : option addr) : Res (list addr) :=
  dfs_loop h fuel pos (opt_list pos).

(* bfs_iterator (99-116) *)
Definition bfs_next (h : heap) (cur : addr) (queue : list addr) : Res (option addr * list addr) :=
  n <- deref h (Some cur) ;;
  let queue' := tl queue ++ opt_list (nleft n) ++ opt_list (nright n) in
  match queue' with
  | [] => Ok (None, [])
  | a :: _ => Ok (Some a, queue')
  end.
Fixpoint bfs_loop (h : heap) (fuel : nat) (cur : option addr) (queue : list addr) : Res (list addr) :=
  match cur with
  | None => Ok []
  | Some a =>
      match fuel with
      | 0 => OutOfFuel
      | S f => st <- bfs_next h a queue ;;
               rest <- bfs_loop h f (fst st) (snd st) ;; Ok (a :: rest)
      end
  end.
(* a client of binary_tree.h:99-120 *)
Definition bfs (h : heap) (fuel : nat) (pos : option addr) : Res (list addr) :=
  bfs_loop h fuel pos (opt_list pos).

(* leaf_iterator::operator++ (133-145): do { dfs step } while (node is not a leaf) *)
Fixpoint leaf_next (h : heap) (fuel : nat) (cur : addr) (stack : list addr) : Res (option addr * list addr) :=
  match fuel with
  | 0 => OutOfFuel
  | S f =>
      st <- dfs_next h cur stack ;;
      match fst st with
      | None => Ok (None, [])
      | Some b =>
          nb <- deref h (Some b) ;;
          match nleft nb, nright nb with
          | None, None => Ok (Some b, snd st)
          | _, _ => leaf_next h f b (snd st)
          end
      end
  end.
(* a client of binary_tree.h:123-150 *)
Fixpoint leaf_loop (h : heap) (fuel : nat) (cur : option addr) (stack : list addr) : Res (list addr) :=
  match cur with
  | None => Ok []
  | Some a =>
      match fuel with
      | 0 => OutOfFuel
      | S f => st <- leaf_next h fuel a stack ;;
               rest <- leaf_loop h f (fst st) (snd st) ;; Ok (a :: rest)
      end
  end.
(* leaf_iterator(node) (128-132): the constructor already advances once *)
Definition leaves (h : heap) (fuel : nat) (pos : option addr) : Res (list addr) :=
  match pos with
  | None => Ok []
  | Some a => st <- leaf_next h fuel a [a] ;; leaf_loop h fuel (fst st) (snd st)
  end.

(* data read through the iterators [binary_tree.h:66] *)
Definition read_all (h : heap) (l : list addr) : Res (list T) :=
  mapM (fun a => n <- deref h (Some a) ;; Ok (ndata n)) l.

(* push(data, less_than) (166-189): the insertion loop from [current] at [depth].  The comparator takes
   the node pointer; here it sees the depth_ and data_ of the node. *)
Fixpoint push_loop (less : T -> nat -> T -> bool) (h : heap) (fuel : nat) (x : T) (current : addr) (depth : nat)
  : Res (heap * addr) :=
  match fuel with
  | 0 => OutOfFuel
  | S f =>
      n <- deref h (Some current) ;;
      let goleft := less x (ndepth n) (ndata n) in
      match (if goleft then nleft n else nright n) with
      | Some c => push_loop less h f x c (S depth)
      | None =>
          let (h1, a) := alloc h (mknode x (Some current) None None depth) in
          Ok (store h1 current
                (if goleft then mknode (ndata n) (nparent n) (Some a) (nright n) (ndepth n)
                 else mknode (ndata n) (nparent n) (nleft n) (Some a) (ndepth n)), a)
      end
  end.
(* binary_tree.h:168-190 *)
Definition push (less : T -> nat -> T -> bool) (h : heap) (fuel : nat) (t : tree) (x : T) : Res (heap * tree * addr) :=
  match root t with
  | None => let (h', a) := alloc h (mknode x None None None 0) in
            Ok (h', mktree (Some a) (S (n_nodes t)), a)
  | Some r => ha <- push_loop less h fuel x r 1 ;;
              Ok (fst ha, mktree (root t) (S (n_nodes t)), snd ha)
  end.
(* push(initializer_list) (190-196): an empty list evaluates end() - 1 and *it : UB *)
Fixpoint push_list (less : T -> nat -> T -> bool) (h : heap) (fuel : nat) (t : tree) (l : list T) : Res (heap * tree * addr) :=
  match l with
  | [] => UB
  | [x] => push less h fuel t x
  | x :: l' => r <- push less h fuel t x ;; push_list less (fst (fst r)) fuel (snd (fst r)) l'
  end.

(* push_ (245-256), emplace (203-214): child of the node at pos *)
Definition push_child (h : heap) (t : tree) (pos : option addr) (to_left : bool) (x : T)
  : Res (heap * tree * addr) :=
  match pos with
  | None => UB
  | Some p =>
      n <- deref h (Some p) ;;
      match (if to_left then nleft n else nright n) with
      | Some c =>
          m <- deref h (Some c) ;;
          Ok (store h c (mknode x (nparent m) (nleft m) (nright m) (ndepth m)), t, c)
      | None =>
          let (h1, a) := alloc h (mknode x (Some p) None None (S (ndepth n))) in
          Ok (store h1 p
                (if to_left then mknode (ndata n) (nparent n) (Some a) (nright n) (ndepth n)
                 else mknode (ndata n) (nparent n) (nleft n) (Some a) (ndepth n)),
              mktree (root t) (S (n_nodes t)), a)
      end
  end.

(* erase(pos) (227-232): for (it = dfs_begin(pos); it != end; ++it, delete tmp) tmp = it.node *)
Fixpoint erase_loop (h : heap) (fuel : nat) (cur : option addr) (stack : list addr) : Res heap :=
  match cur with
  | None => Ok h
  | Some a =>
      match fuel with
      | 0 => OutOfFuel
      | S f => st <- dfs_next h a stack ;; h' <- free h a ;; erase_loop h' f (fst st) (snd st)
      end
  end.
Definition erase (h : heap) (fuel : nat) (t : tree) (pos : option addr) : Res (heap * tree) :=
  h' <- erase_loop h fuel pos (opt_list pos) ;; Ok (h', empty_tree).
(* clear() (234-236), also the destructor (242) *)
Definition clear (h : heap) (fuel : nat) (t : tree) : Res (heap * tree) :=
  if is_empty t then Ok (h, t) else erase h fuel t (root t).

(* clone_(other) (258-273), after clear(): [it]/[itq] is the bfs iterator over other and its queue,
   [cur]/[q] the current node of the copy and queue_ *)
Fixpoint clone_loop (h : heap) (fuel : nat) (t : tree) (it : option addr) (itq : list addr)
    (cur : addr) (q : list addr) : Res (heap * tree) :=
  match it with
  | None => Ok (h, t)
  | Some a =>
      match fuel with
      | 0 => OutOfFuel
      | S f =>
          n <- deref h (Some a) ;;
          r1 <- match nleft n with
                | None => Ok (h, t, tl q)
                | Some c => m <- deref h (Some c) ;;
                            r <- push_child h t (Some cur) true (ndata m) ;;
                            Ok (fst (fst r), snd (fst r), tl q ++ [snd r])
                end ;;
          let '(h1, t1, q1) := r1 in
          r2 <- match nright n with
                | None => Ok (h1, t1, q1)
                | Some c => m <- deref h1 (Some c) ;;
                            r <- push_child h1 t1 (Some cur) false (ndata m) ;;
                            Ok (fst (fst r), snd (fst r), q1 ++ [snd r])
                end ;;
          let '(h2, t2, q2) := r2 in
          let cur' := match q2 with [] => cur | b :: _ => b end in
          st <- bfs_next h2 a itq ;;
          clone_loop h2 f t2 (fst st) (snd st) cur' q2
      end
  end.
(* copy construction / assignment of a tree object from a distinct one (45-49, 258-273).  The
   assertion on line 259 precedes clear(). *)
Definition clone (h : heap) (fuel : nat) (this other : tree) : Res (heap * tree) :=
  _ <- assert_ (negb (is_empty other)) ;;
  r <- clear h fuel this ;;
  let (h1, t1) := (r : heap * tree) in
  o <- deref h1 (root other) ;;
  let (h2, a) := alloc h1 (mknode (ndata o) None None None 0) in
  clone_loop h2 fuel (mktree (Some a) (S (n_nodes t1))) (root other) (opt_list (root other)) a [a].
(* self-assignment t = t: [other] is the object cleared by clear() [binary_tree.h:46-49, 258-273] *)
Definition self_clone (h : heap) (fuel : nat) (this : tree) : Res (heap * tree) :=
  _ <- assert_ (negb (is_empty this)) ;;
  r <- clear h fuel this ;;
  let (h1, t1) := (r : heap * tree) in
  o <- deref h1 (root t1) ;;
  let (h2, a) := alloc h1 (mknode (ndata o) None None None 0) in
  clone_loop h2 fuel (mktree (Some a) (S (n_nodes t1))) (root t1) (opt_list (root t1)) a [a].

(* move_(other) from a distinct object (51-55, 275-286); returns heap, this, other *)
Definition move (h : heap) (fuel : nat) (this other : tree) : Res (heap * tree * tree) :=
  r <- clear h fuel this ;;
  let (h1, t1) := (r : heap * tree) in
  if is_empty other then Ok (h1, t1, other) else
  o <- deref h1 (root other) ;;
  let (h2, a) := alloc h1 (mknode (ndata o) None (nleft o) (nright o) 0) in
  h3 <- match root other with Some ra => free h2 ra | None => UB end ;;
  Ok (h3, mktree (Some a) (n_nodes other), empty_tree).
(* t = std::move(t) [binary_tree.h:52-55, 275-286] *)
Definition self_move (h : heap) (fuel : nat) (this : tree) : Res (heap * tree) :=
  r <- clear h fuel this ;;
  let (h1, t1) := (r : heap * tree) in
  if is_empty t1 then Ok (h1, t1) else UB.

(* BST::find (358-366) *)
Fixpoint find (less eqb : T -> T -> bool) (h : heap) (fuel : nat) (x : T) (current : option addr) : Res (option addr) :=
  match fuel with
  | 0 => OutOfFuel
  | S f =>
      n <- deref h current ;;
      match nleft n, nright n with
      | None, None => Ok None
      | _, _ => if eqb (ndata n) x then Ok current
                else find less eqb h f x (if less x (ndata n) then nleft n else nright n)
      end
  end.

End Tree.

Arguments mknode {T}. Arguments ndata {T}. Arguments nparent {T}. Arguments nleft {T}.
Arguments nright {T}. Arguments ndepth {T}. Arguments mkheap {T}. Arguments cells {T}. Arguments next {T}.
Arguments empty_heap {T}.
Arguments deref {T}. Arguments store {T}. Arguments alloc {T}. Arguments free {T}.
Arguments tree_of {T}.
Arguments dfs_next {T}. Arguments dfs_loop {T}. Arguments dfs {T}. Arguments bfs_next {T}. Arguments bfs_loop {T}.
Arguments bfs {T}. Arguments leaf_next {T}. Arguments leaf_loop {T}. Arguments leaves {T}. Arguments read_all {T}.
Arguments push_loop {T}. Arguments push {T}. Arguments push_list {T}. Arguments push_child {T}.
Arguments erase_loop {T}. Arguments erase {T}. Arguments clear {T}. Arguments clone_loop {T}. Arguments clone {T}.
Arguments self_clone {T}. Arguments move {T}. Arguments self_move {T}. Arguments find {T}.

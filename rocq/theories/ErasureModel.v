(* Type-erased objects with heap storage: utils/type_erasure.h.  The memory of the objects and of the virtual tables is
   explicit, so that a use after free or a double free is visible as UB. *)
From Verif Require Import Base TraitsModel.

(* one allocation: its content while it is alive, Freed after delete.  Addresses are positions and are never reused [memory of type_erasure.h:130, 179, 228] *)
Inductive cell (A : Type) := Live (a : A) | Freed.
Arguments Live {A} a. Arguments Freed {A}.
(* type_erasure.h:78, 133, 180 *)
Definition load {A} (h : list (cell A)) (p : nat) : Res A := c <- nth_res h p ;; match c with Live a => Ok a | Freed => UB end.
(* type_erasure.h:180, 229 *)
Definition store {A} (h : list (cell A)) (p : nat) (a : A) : Res (list (cell A)) := _ <- load h p ;; Ok (upd h p (Live a)).
(* type_erasure.h:132, 189, 199, 208, 227 *)
Definition free {A} (h : list (cell A)) (p : nat) : Res (list (cell A)) := _ <- load h p ;; Ok (upd h p Freed).
(* type_erasure.h:130, 133, 179, 228 *)
Definition alloc {A} (h : list (cell A)) (a : A) : list (cell A) * nat := (h ++ [Live a], length h).

Section Erase.
(* the interfaces I... of erase<heap_storage, I...>: for each one the number of methods it lists (the same for every stored
   type, a simplification: the code allows lists of different lengths for different types) *)
Variable ifaces : list (nat * nat).
Variables (V A R : Type).
(* the method of interface i, position n, on an object of type t: new value and result *)
Variable call : nat -> nat -> nat -> V -> A -> V * R.

(* type_erasure.h:125, 130 *)
Record object := Object { o_type : nat; o_value : V }.
(* a slot of vtable_, type_erasure.h:73-91 *)
Record entry := Entry { e_type : nat; e_iface : nat; e_n : nat }.
(* vtable_handler, 171-216, and heap_storage, 121-169: w_size is None while size_ is indeterminate; w_del and w_copy carry the type T of the
   lambdas they point to *)
Record wrapper := Wrapper { w_vtable : option nat; w_size : option nat; w_offsets : list (nat * Z); w_ptr : option nat; w_del : option nat; w_copy : option nat }.
Record state := State { objects : list (cell object); vtables : list (cell (list (option entry))); vars : nat -> option wrapper }.
Definition set (e : nat -> option wrapper) (x : nat) (w : option wrapper) : nat -> option wrapper := fun y => if y =? x then w else e y.

(* del(ptr): delete reinterpret_cast<T*>(ptr), 128: the type must be that of the object *)
Definition delete_object (h : list (cell object)) (del : option nat) (p : nat) : Res (list (cell object)) :=
  match del with
  | None => UB
  | Some t => o <- load h p ;; if o_type o =? t then free h p else UB
  end.
(* if (ptr_) del(ptr_) [type_erasure.h:140, 153, 166] *)
Definition release (h : list (cell object)) (w : wrapper) : Res (list (cell object)) :=
  match w_ptr w with None => Ok h | Some p => delete_object h (w_del w) p end.
(* other.ptr_ == nullptr ? nullptr : other.copy(other.ptr_), 129, 133, 138 *)
Definition copy_object (h : list (cell object)) (w : wrapper) : Res (list (cell object) * option nat) :=
  match w_ptr w with
  | None => Ok (h, None)
  | Some p =>
      match w_copy w with
      | None => UB
      | Some t => o <- load h p ;; if o_type o =? t then let '(h', q) := alloc h o in Ok (h', Some q) else UB
      end
  end.
(* if (vtable_) delete[] vtable_ [type_erasure.h:189, 199, 208] *)
Definition release_vtable (h : list (cell (list (option entry)))) (w : wrapper) : Res (list (cell (list (option entry)))) :=
  match w_vtable w with None => Ok h | Some p => free h p end.
(* vtable_copy(vt1, vt2): 177-182.  src is the table pointer of vt1 as seen inside the loop; the entries of a new array are
   indeterminate (None) until written *)
Definition vtable_copy (h : list (cell (list (option entry)))) (size : option nat) (src : nat -> option nat) :
  Res (list (cell (list (option entry))) * nat * nat) :=
  match size with
  | None => UB
  | Some n =>
      let '(h1, l) := alloc h (repeat None n) in
      es <- mapM (fun i => match src l with None => UB | Some p => t <- load h1 p ;; nth_res t i end) (seq 0 n) ;;
      h2 <- store h1 l es ;; Ok (h2, l, n)
  end.
(* vtable_handler(const vtable_handler& other): 186-187: size_ is left indeterminate when there is no table to copy *)
Definition handler_copy (h : list (cell (list (option entry)))) (w : wrapper) : Res (list (cell (list (option entry))) * option nat * option nat) :=
  match w_vtable w with
  | None => Ok (h, None, None)
  | Some p => r <- vtable_copy h (w_size w) (fun _ => Some p) ;; let '(h', l, n) := r in Ok (h', Some l, Some n)
  end.
(* vtable_handler::operator=(const vtable_handler& other): 188-193: copies even when other has no table (an array of no entries); in a self
   assignment the source pointer is the freshly allocated array *)
Definition handler_assign (h : list (cell (list (option entry)))) (x y : nat) (wx wy : wrapper) : Res (list (cell (list (option entry))) * nat * nat) :=
  h1 <- release_vtable h wx ;; vtable_copy h1 (w_size wy) (fun l => if x =? y then Some l else w_vtable wy).
(* methods of type t, and _vtable_init: 220-238 *)
Definition methods (t : nat) : list (nat * list entry) := map (fun im => (fst im, map (Entry t (fst im)) (seq 0 (snd im)))) ifaces.
Definition init_table (h : list (cell (list (option entry)))) (w : wrapper) (t : nat) : Res (list (cell (list (option entry))) * wrapper) :=
  h1 <- release_vtable h w ;;
  r <- vtable_init (methods t) (w_offsets w) ;;
  let '(vt, off) := r in
  let '(h2, l) := alloc h1 vt in
  Ok (h2, Wrapper (Some l) (Some (list_sum (map snd ifaces))) off (w_ptr w) (w_del w) (w_copy w)).

Inductive op :=
| New (x : nat)                       (* erase x; *)
| Make (x : nat) (o : object)         (* erase x(obj); *)
| Copy (x y : nat)                    (* erase x(y); *)
| Move (x y : nat)                    (* erase x(std::move(y)); *)
| Assign (x y : nat)                  (* x = y; *)
| AssignMove (x y : nat)              (* x = std::move(y); *)
| AssignValue (x : nat) (o : object)  (* x = obj; *)
| Destroy (x : nat)                   (* end of life of x *)
| Test (x : nat)                      (* if (x) *)
| Call (x i n : nat) (a : A).         (* x.method(a): invoke<R, n> from interface i *)
(* what the calls of type_erasure.h:213, 239-275 return *)
Inductive out := Nothing | Bool (b : bool) | Result (r : R).

(* a variable is used only while it is alive, and created only when it is not: anything else is outside the language [lifetime of the variables; not code of type_erasure.h] *)
Definition live (s : state) (x : nat) : Res wrapper := match vars s x with Some w => Ok w | None => UB end.
(* lifetime of the variables; not code of type_erasure.h *)
Definition fresh (s : state) (x : nat) : Res unit := match vars s x with None => Ok tt | Some _ => UB end.
(* the members before their constructors ran, type_erasure.h:171-174, 125-127 *)
Definition no_handler : wrapper := Wrapper None (Some 0) [] None None None.

(* a client of type_erasure.h:124-275 *)
Definition step (s : state) (o : op) : Res (state * out) :=
  match o with
  | New x =>                                      (* 240, 184, 126 *)
      _ <- fresh s x ;; Ok (State (objects s) (vtables s) (set (vars s) x (Some no_handler)), Nothing)
  | Make x obj =>                                 (* 253: data_(obj), then _vtable_init *)
      _ <- fresh s x ;;
      let '(h, p) := alloc (objects s) obj in
      r <- init_table (vtables s) (Wrapper None (Some 0) [] (Some p) (Some (o_type obj)) (Some (o_type obj))) (o_type obj) ;;
      let '(v, w) := r in Ok (State h v (set (vars s) x (Some w)), Nothing)
  | Copy x y =>                                   (* 241: vtable_handler(other), data_(other.data_) *)
      _ <- fresh s x ;; wy <- live s y ;;
      r <- handler_copy (vtables s) wy ;; let '(v, l, n) := r in
      q <- copy_object (objects s) wy ;; let '(h, p) := q in
      Ok (State h v (set (vars s) x (Some (Wrapper l n (w_offsets wy) p (w_del wy) (w_copy wy)))), Nothing)
  | Move x y =>                                   (* 247: other is an lvalue, the handler is copied; the storage is moved, 148-150 *)
      _ <- fresh s x ;; wy <- live s y ;;
      r <- handler_copy (vtables s) wy ;; let '(v, l, n) := r in
      let wx := Wrapper l n (w_offsets wy) (w_ptr wy) (w_del wy) (w_copy wy) in
      let wy' := Wrapper (w_vtable wy) (w_size wy) (w_offsets wy) None None None in
      Ok (State (objects s) v (set (set (vars s) y (Some wy')) x (Some wx)), Nothing)
  | Assign x y =>                                 (* 242-246; storage 135-143 *)
      wx <- live s x ;; wy <- live s y ;;
      r <- handler_assign (vtables s) x y wx wy ;; let '(v, l, n) := r in
      h1 <- release (objects s) wx ;;
      q <- copy_object h1 wy ;; let '(h2, p) := q in
      Ok (State h2 v (set (vars s) x (Some (Wrapper (Some l) (Some n) (w_offsets wy) p (w_del wy) (w_copy wy)))), Nothing)
  | AssignMove x y =>                             (* 248-252; storage 151-159 *)
      wx <- live s x ;; wy <- live s y ;;
      r <- handler_assign (vtables s) x y wx wy ;; let '(v, l, n) := r in
      h1 <- release (objects s) wx ;;
      let wx' := Wrapper (Some l) (Some n) (w_offsets wy) (w_ptr wy) (w_del wy) (w_copy wy) in
      let wy' := Wrapper (w_vtable wy) (w_size wy) (w_offsets wy) None None None in
      Ok (State h1 v (set (set (vars s) y (Some wy')) x (Some wx')), Nothing)
  | AssignValue x obj =>                          (* 254-258: data_ = StorageType(obj) moves a temporary in, then _vtable_init *)
      wx <- live s x ;;
      let '(h, p) := alloc (objects s) obj in
      h1 <- release h wx ;;
      r <- init_table (vtables s) (Wrapper (w_vtable wx) (w_size wx) (w_offsets wx) (Some p) (Some (o_type obj)) (Some (o_type obj))) (o_type obj) ;;
      let '(v, w) := r in Ok (State h1 v (set (vars s) x (Some w)), Nothing)
  | Destroy x =>                                  (* 264: data_ first (164-168), then the handler (206-210) *)
      wx <- live s x ;; h <- release (objects s) wx ;; v <- release_vtable (vtables s) wx ;;
      Ok (State h v (set (vars s) x None), Nothing)
  | Test x =>                                     (* 262, 212: size_ != 0 *)
      wx <- live s x ;; match w_size wx with None => UB | Some n => Ok (s, Bool (negb (n =? 0))) end
  | Call x i n a =>                               (* 270-275: the entry casts the object to the type it was made for *)
      wx <- live s x ;;
      match w_vtable wx with
      | None => UB
      | Some l =>
          vt <- load (vtables s) l ;; e <- dispatch vt (w_offsets wx) i n ;;
          match w_ptr wx with
          | None => UB
          | Some p =>
              o <- load (objects s) p ;;
              if o_type o =? e_type e then
                let '(v', r) := call (e_type e) (e_iface e) (e_n e) (o_value o) a in
                h <- store (objects s) p (Object (o_type o) v') ;; Ok (State h (vtables s) (vars s), Result r)
              else UB
          end
      end
  end.
(* a client of type_erasure.h:124-275 *)
Fixpoint run (s : state) (ops : list op) : Res (state * list out) :=
  match ops with
  | [] => Ok (s, [])
  | o :: r => p <- step s o ;; q <- run (fst p) r ;; Ok (fst q, snd p :: snd q)
  end.
(* no object yet: a client of type_erasure.h:124-275 *)
Definition init : state := State [] [] (fun _ => None).
End Erase.

(* Type-erased objects which share or only view what they hold: erase<shared_storage, I...> and erase<non_owning_storage, I...>,
   utils/type_erasure.h:96-121.  The virtual tables are those of ErasureModel. *)
From Verif Require Import Base TraitsModel ErasureModel.

Section Share.
Variable ifaces : list (nat * nat).
Variables (V A R : Type).
Variable call : nat -> nat -> nat -> V -> A -> V * R.
Local Notation object := (object V).
Local Notation op := (op V A).

(* invoke: 270-275, on the object at p *)
Definition invoke_on (vts : list (cell (list (option entry)))) (w : wrapper) (i n : nat) (a : A) (o : object) : Res (object * R) :=
  match w_vtable w with
  | None => UB
  | Some l =>
      vt <- load vts l ;; e <- dispatch vt (w_offsets w) i n ;;
      if o_type V o =? e_type e then
        let '(v, r) := call (e_type e) (e_iface e) (e_n e) (o_value V o) a in Ok (Object V (o_type V o) v, r)
      else UB
  end.
Definition with_ptr (w : wrapper) (p : option nat) : wrapper := Wrapper (w_vtable w) (w_size w) (w_offsets w) p None None.

(* ------------------------------------------------------------------ shared_storage, 96-103 *)
(* std::shared_ptr<void>: the object and the number of owners; make_shared<T> remembers how to destroy a T [type_erasure.h:96-103] *)
Record sstate := SState { s_objects : list (cell (object * nat)); s_vtables : list (cell (list (option entry))); s_vars : nat -> option wrapper }.
(* copy construction of a shared_ptr [the implicit copy and destructor of ptr_, type_erasure.h:97] *)
Definition share (h : list (cell (object * nat))) (p : option nat) : Res (list (cell (object * nat))) :=
  match p with None => Ok h | Some p => c <- load h p ;; store h p (fst c, S (snd c)) end.
(* destruction of a shared_ptr: the last owner destroys the object [the implicit copy and destructor of ptr_, type_erasure.h:97] *)
Definition unshare (h : list (cell (object * nat))) (p : option nat) : Res (list (cell (object * nat))) :=
  match p with
  | None => Ok h
  | Some p => c <- load h p ;; match snd c with O => UB | S O => free h p | S n => store h p (fst c, n) end
  end.
(* lifetime of the variables, as in ErasureModel *)
Definition s_live (s : sstate) (x : nat) : Res wrapper := match s_vars s x with Some w => Ok w | None => UB end.
(* lifetime of the variables, as in ErasureModel *)
Definition s_fresh (s : sstate) (x : nat) : Res unit := match s_vars s x with None => Ok tt | Some _ => UB end.
(* a client of type_erasure.h:96-103, 171-275 *)
Definition s_step (s : sstate) (o : op) : Res (sstate * out R) :=
  match o with
  | New _ _ x =>                                      (* 240 *)
      _ <- s_fresh s x ;; Ok (SState (s_objects s) (s_vtables s) (set (s_vars s) x (Some no_handler)), Nothing R)
  | Make _ _ x obj =>                                 (* 253, 102 *)
      _ <- s_fresh s x ;;
      let '(h, p) := alloc (s_objects s) (obj, 1) in
      r <- init_table ifaces (s_vtables s) (Wrapper None (Some 0) [] (Some p) None None) (o_type V obj) ;;
      let '(v, w) := r in Ok (SState h v (set (s_vars s) x (Some w)), Nothing R)
  | Copy _ _ x y =>                                   (* 241; implicit copy of the storage *)
      _ <- s_fresh s x ;; wy <- s_live s y ;;
      r <- handler_copy (s_vtables s) wy ;; let '(v, l, n) := r in
      h <- share (s_objects s) (w_ptr wy) ;;
      Ok (SState h v (set (s_vars s) x (Some (Wrapper l n (w_offsets wy) (w_ptr wy) None None))), Nothing R)
  | Move _ _ x y =>                                   (* 247; implicit move of the storage *)
      _ <- s_fresh s x ;; wy <- s_live s y ;;
      r <- handler_copy (s_vtables s) wy ;; let '(v, l, n) := r in
      Ok (SState (s_objects s) v (set (set (s_vars s) y (Some (with_ptr wy None))) x (Some (Wrapper l n (w_offsets wy) (w_ptr wy) None None))), Nothing R)
  | Assign _ _ x y =>                                 (* 242-246; shared_ptr(other).swap( *this) *)
      wx <- s_live s x ;; wy <- s_live s y ;;
      r <- handler_assign (s_vtables s) x y wx wy ;; let '(v, l, n) := r in
      h1 <- share (s_objects s) (w_ptr wy) ;;
      h2 <- unshare h1 (w_ptr wx) ;;
      Ok (SState h2 v (set (s_vars s) x (Some (Wrapper (Some l) (Some n) (w_offsets wy) (w_ptr wy) None None))), Nothing R)
  | AssignMove _ _ x y =>                             (* 248-252; shared_ptr(std::move(other)).swap( *this): a temporary takes the pointer of y, then that of x *)
      wx <- s_live s x ;; wy <- s_live s y ;;
      r <- handler_assign (s_vtables s) x y wx wy ;; let '(v, l, n) := r in
      h1 <- unshare (s_objects s) (if x =? y then None else w_ptr wx) ;;
      Ok (SState h1 v (set (set (s_vars s) y (Some (with_ptr wy None))) x (Some (Wrapper (Some l) (Some n) (w_offsets wy) (w_ptr wy) None None))), Nothing R)
  | AssignValue _ _ x obj =>                          (* 254-258 *)
      wx <- s_live s x ;;
      let '(h, p) := alloc (s_objects s) (obj, 1) in
      h1 <- unshare h (w_ptr wx) ;;
      r <- init_table ifaces (s_vtables s) (Wrapper (w_vtable wx) (w_size wx) (w_offsets wx) (Some p) None None) (o_type V obj) ;;
      let '(v, w) := r in Ok (SState h1 v (set (s_vars s) x (Some w)), Nothing R)
  | Destroy _ _ x =>                                  (* 264 *)
      wx <- s_live s x ;; h <- unshare (s_objects s) (w_ptr wx) ;; v <- release_vtable (s_vtables s) wx ;;
      Ok (SState h v (set (s_vars s) x None), Nothing R)
  | Test _ _ x =>                                     (* 262 *)
      wx <- s_live s x ;; match w_size wx with None => UB | Some n => Ok (s, Bool R (negb (n =? 0))) end
  | Call _ _ x i n a =>                               (* 270-275 *)
      wx <- s_live s x ;;
      match w_ptr wx with
      | None => UB
      | Some p =>
          c <- load (s_objects s) p ;;
          r <- invoke_on (s_vtables s) wx i n a (fst c) ;;
          h <- store (s_objects s) p (fst r, snd c) ;; Ok (SState h (s_vtables s) (s_vars s), Result R (snd r))
      end
  end.
Fixpoint s_run (s : sstate) (ops : list op) : Res (sstate * list (out R)) :=
  match ops with
  | [] => Ok (s, [])
  | o :: r => p <- s_step s o ;; q <- s_run (fst p) r ;; Ok (fst q, snd p :: snd q)
  end.
(* no object yet: a client of type_erasure.h:96-103 *)
Definition s_init : sstate := SState [] [] (fun _ => None).

(* ------------------------------------------------------------------ non_owning_storage, 105-121 *)
(* the objects belong to the caller: v_objects is the caller's memory, a storage is an address in it [a client of type_erasure.h:105-122, 171-275] *)
Inductive vop :=
| Alloc (o : object)                 (* the caller creates an object *)
| Kill (p : nat)                     (* the lifetime of an object of the caller ends *)
| VNew (x : nat)
| View (x p : nat)                   (* erase x(obj); *)
| VCopy (x y : nat)
| VMove (x y : nat)
| VAssign (x y : nat)
| VAssignMove (x y : nat)
| ViewAssign (x p : nat)             (* x = obj; *)
| VDestroy (x : nat)
| VTest (x : nat)
| VCall (x i n : nat) (a : A)
| Peek (p : nat)                     (* the caller looks at the object *)
| Poke (p : nat) (v : V).            (* the caller changes the object *)
(* a client of type_erasure.h:105-122, 171-275 *)
Inductive vout := VNothing | VBool (b : bool) | VResult (r : R) | VSeen (o : object).
(* type_erasure.h:105-106 *)
Record vstate := VState { v_objects : list (cell object); v_vtables : list (cell (list (option entry))); v_vars : nat -> option wrapper }.
(* lifetime of the variables, as in ErasureModel *)
Definition v_live (s : vstate) (x : nat) : Res wrapper := match v_vars s x with Some w => Ok w | None => UB end.
(* lifetime of the variables, as in ErasureModel *)
Definition v_fresh (s : vstate) (x : nat) : Res unit := match v_vars s x with None => Ok tt | Some _ => UB end.
(* a client of type_erasure.h:105-122, 171-275 *)
Definition v_step (s : vstate) (o : vop) : Res (vstate * vout) :=
  match o with
  | Alloc o => Ok (VState (fst (alloc (v_objects s) o)) (v_vtables s) (v_vars s), VNothing)
  | Kill p => h <- free (v_objects s) p ;; Ok (VState h (v_vtables s) (v_vars s), VNothing)
  | Peek p => o <- load (v_objects s) p ;; Ok (s, VSeen o)
  | Poke p v => o <- load (v_objects s) p ;; h <- store (v_objects s) p (Object V (o_type V o) v) ;; Ok (VState h (v_vtables s) (v_vars s), VNothing)
  | VNew x => _ <- v_fresh s x ;; Ok (VState (v_objects s) (v_vtables s) (set (v_vars s) x (Some no_handler)), VNothing)
  | View x p =>                                       (* 253, 111-112: T is the type of the object *)
      _ <- v_fresh s x ;; o <- load (v_objects s) p ;;
      r <- init_table ifaces (v_vtables s) (Wrapper None (Some 0) [] (Some p) None None) (o_type V o) ;;
      let '(v, w) := r in Ok (VState (v_objects s) v (set (v_vars s) x (Some w)), VNothing)
  | VCopy x y =>                                      (* 241, 114 *)
      _ <- v_fresh s x ;; wy <- v_live s y ;;
      r <- handler_copy (v_vtables s) wy ;; let '(v, l, n) := r in
      Ok (VState (v_objects s) v (set (v_vars s) x (Some (Wrapper l n (w_offsets wy) (w_ptr wy) None None))), VNothing)
  | VMove x y =>                                      (* 247, 120: the defaulted move copies the pointer *)
      _ <- v_fresh s x ;; wy <- v_live s y ;;
      r <- handler_copy (v_vtables s) wy ;; let '(v, l, n) := r in
      Ok (VState (v_objects s) v (set (v_vars s) x (Some (Wrapper l n (w_offsets wy) (w_ptr wy) None None))), VNothing)
  | VAssign x y =>                                    (* 242-246, 115-118 *)
      wx <- v_live s x ;; wy <- v_live s y ;;
      r <- handler_assign (v_vtables s) x y wx wy ;; let '(v, l, n) := r in
      Ok (VState (v_objects s) v (set (v_vars s) x (Some (Wrapper (Some l) (Some n) (w_offsets wy) (w_ptr wy) None None))), VNothing)
  | VAssignMove x y =>                                (* 248-252, 121 *)
      wx <- v_live s x ;; wy <- v_live s y ;;
      r <- handler_assign (v_vtables s) x y wx wy ;; let '(v, l, n) := r in
      Ok (VState (v_objects s) v (set (v_vars s) x (Some (Wrapper (Some l) (Some n) (w_offsets wy) (w_ptr wy) None None))), VNothing)
  | ViewAssign x p =>                                 (* 254-258 *)
      wx <- v_live s x ;; o <- load (v_objects s) p ;;
      r <- init_table ifaces (v_vtables s) (Wrapper (w_vtable wx) (w_size wx) (w_offsets wx) (Some p) None None) (o_type V o) ;;
      let '(v, w) := r in Ok (VState (v_objects s) v (set (v_vars s) x (Some w)), VNothing)
  | VDestroy x =>                                     (* 264 *)
      wx <- v_live s x ;; v <- release_vtable (v_vtables s) wx ;;
      Ok (VState (v_objects s) v (set (v_vars s) x None), VNothing)
  | VTest x => wx <- v_live s x ;; match w_size wx with None => UB | Some n => Ok (s, VBool (negb (n =? 0))) end
  | VCall x i n a =>                                  (* 270-275 *)
      wx <- v_live s x ;;
      match w_ptr wx with
      | None => UB
      | Some p =>
          o <- load (v_objects s) p ;;
          r <- invoke_on (v_vtables s) wx i n a o ;;
          h <- store (v_objects s) p (fst r) ;; Ok (VState h (v_vtables s) (v_vars s), VResult (snd r))
      end
  end.
Fixpoint v_run (s : vstate) (ops : list vop) : Res (vstate * list vout) :=
  match ops with
  | [] => Ok (s, [])
  | o :: r => p <- v_step s o ;; q <- v_run (fst p) r ;; Ok (fst q, snd p :: snd q)
  end.
(* no object yet: a client of type_erasure.h:105-122 *)
Definition v_init : vstate := VState [] [] (fun _ => None).
End Share.

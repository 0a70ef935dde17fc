(* Type lists (utils/traits.h, utils/type_erasure.h), virtual tables of type-erased objects
   (utils/type_erasure.h) and vector comparators (utils/symbols.h). *)
From Verif Require Import Base.

(* ------------------------------------------------------------------ type lists *)
(* Types of a list are compared by std::is_same only: a type is modelled by its name and, for template instances,
   its arguments.  A template that does not compile is modelled by Throw (static_assert) or None. *)
(* the types a list of traits.h:25-110, type_erasure.h:32-70 holds *)
Inductive ty := Plain (n : nat) | Inst (template : nat) (args : list nat).
(* the types a list of traits.h:25-110, type_erasure.h:32-70 holds *)
Definition ty_eqb (a b : ty) : bool :=
  match a, b with
  | Plain n, Plain m => n =? m
  | Inst t l, Inst u k => (t =? u) && (if list_eq_dec Nat.eq_dec l k then true else false)
  | _, _ => false
  end.

(* unique_types<T1, Ts...>: utils/traits.h:69-82.  Recursion on the pair (T1, T2): both are matched against the rest.  The
   specialisation for two types gives the same value as the general one with Ts empty *)
Fixpoint unique_from (t1 : ty) (ts : list ty) : bool :=
  match ts with
  | [] => true
  | t2 :: rest => negb (ty_eqb t1 t2) && unique_from t1 rest && unique_from t2 rest
  end.
(* unique_types<> is not defined: 69 *)
Definition unique_types (l : list ty) : option bool := match l with [] => None | t :: r => Some (unique_from t r) end.

(* index_of<T, tuple<Ts...>>::find_idx: utils/traits.h:85-95: -1 plus the sum of idx + 1 over the matching positions, in
   std::size_t (64 bits), converted to int.  An empty pack has no sum and does not compile *)
Fixpoint index_sum (t : ty) (l : list ty) (idx : Z) : Z :=
  match l with [] => 0 | u :: r => ((if ty_eqb t u then idx + 1 else 0) + index_sum t r (idx + 1))%Z end.
Definition to_int (z : Z) : Z := let m := (z mod 2 ^ 32)%Z in if (m <? 2 ^ 31)%Z then m else (m - 2 ^ 32)%Z.
Definition index_of (t : ty) (l : list ty) : option Z :=
  match l with [] => None | _ => Some (to_int ((-1 + index_sum t l 0) mod 2 ^ 64)) end.

(* has_type<T, tuple<...>>: utils/traits.h:50-55.  The specialisation of 98-101 is less specialised than these and never selected *)
Fixpoint has_type (t : ty) (l : list ty) : bool :=
  match l with [] => false | u :: r => if ty_eqb t u then true else has_type t r end.

(* has_instance_of<E, tuple<...>>: utils/traits.h:58-66: the specialisation E<F> has one argument *)
Fixpoint has_instance_of (e : nat) (l : list ty) : bool :=
  match l with
  | [] => false
  | Inst t [_] :: r => if t =? e then true else has_instance_of e r
  | _ :: r => has_instance_of e r
  end.

(* switch_type<Cases...>: utils/traits.h:123-145; a case is a condition and a type; eval_if does not look at the tail when the
   head is selected; the last case must be true (static_assert) *)
Fixpoint switch_type (l : list (bool * ty)) : Res ty :=
  match l with
  | [] => Throw
  | [(b, t)] => if b then Ok t else Throw
  | (b, t) :: r => if b then Ok t else switch_type r
  end.

(* TypeListGetImpl and get: utils/type_erasure.h:36-48.  A list of one type answers that type whatever the index *)
Fixpoint get_impl (i n : nat) (l : list ty) : option ty :=
  match l with
  | [] => None
  | [t] => Some t
  | t :: r => if n =? i then Some t else get_impl i (S n) r
  end.
Definition type_get (i : nat) (l : list ty) : option ty := if i <? length l then get_impl i 0 l else None.

(* merge<V1, V2, ...>: utils/type_erasure.h:60-70 *)
Section Merge.
Context {V : Type}.
Fixpoint merge_from (v : list V) (vs : list (list V)) : list V := match vs with [] => v | w :: r => merge_from (v ++ w) r end.
Definition merge (vs : list (list V)) : option (list V) := match vs with [] => None | v :: r => Some (merge_from v r) end.
End Merge.

(* split_tuple_at_index<N>::head and tail: utils/traits.h:104-118: std::get<M + Ns>(t) for Ns < N, Ns < size - N; std::get out of
   range does not compile (None), and neither does a negative size *)
Definition get_range {A} (m n : nat) (l : list A) : option (list A) :=
  match mapM (fun i => nth_res l (m + i)) (seq 0 n) with Ok r => Some r | _ => None end.
Definition split_head {A} (n : nat) (l : list A) : option (list A) := get_range 0 n l.
Definition split_tail {A} (n : nat) (l : list A) : option (list A) := if n <=? length l then get_range n (length l - n) l else None.

(* ------------------------------------------------------------------ virtual tables *)
Section VTable.
Context {M : Type}.      (* methods: what load_method returns for a type and a member pointer, utils/type_erasure.h:73-80 *)

(* init_vtable<N, T>(ValueList<...>, vtable): 82-91; an empty list does not compile *)
Fixpoint init_vtable (n : nat) (fs : list M) (vtable : list (option M)) : Res (list (option M)) :=
  match fs with
  | [] => Throw
  | [f] => upd_res vtable n (Some f)
  | f :: rest => vt <- upd_res vtable n (Some f) ;; init_vtable (S n) rest vt
  end.
(* std::unordered_map<std::type_index, int>: operator[] = and at [type_erasure.h:233] *)
Fixpoint off_set (t : list (nat * Z)) (i : nat) (o : Z) : list (nat * Z) :=
  match t with [] => [(i, o)] | (j, p) :: r => if j =? i then (j, o) :: r else (j, p) :: off_set r i o end.
(* type_erasure.h:272 *)
Fixpoint off_at (t : list (nat * Z)) (i : nat) : Res Z :=
  match t with [] => Throw | (j, p) :: r => if j =? i then Ok p else off_at r i end.
(* _vtable_init: 220-238.  Interfaces are given by their type and the methods fn_ptrs<T> they list for the stored type.
   The new table has size_ entries; base_ advances by the number of methods of each interface *)
Fixpoint load_offsets (ifs : list (nat * list M)) (base : Z) (t : list (nat * Z)) : list (nat * Z) :=
  match ifs with [] => t | (i, ms) :: r => load_offsets r (base + Z.of_nat (length ms)) (off_set t i base) end.
Definition vtable_init (ifs : list (nat * list M)) (offsets : list (nat * Z)) : Res (list (option M) * list (nat * Z)) :=
  let size := list_sum (map (fun im => length (snd im)) ifs) in
  match merge (map snd ifs) with
  | None => Throw
  | Some fs => vt <- init_vtable 0 fs (repeat None size) ;; Ok (vt, load_offsets ifs 0 offsets)
  end.
(* the index of invoke<RetType, N>: 270-275: a short; an entry that was never written, or an index out of range, is undefined *)
Definition to_short (z : Z) : Z := let m := (z mod 2 ^ 16)%Z in if (m <? 2 ^ 15)%Z then m else (m - 2 ^ 16)%Z.
Definition dispatch (vt : list (option M)) (offsets : list (nat * Z)) (i : nat) (n : nat) : Res M :=
  o <- off_at offsets i ;;
  let k := to_short (o + Z.of_nat n) in
  if (k <? 0)%Z then UB else e <- nth_res vt (Z.to_nat k) ;; match e with Some m => Ok m | None => UB end.
End VTable.

(* ------------------------------------------------------------------ comparators *)
Section Lex.
Context {T : Type} (lt : T -> T -> bool).
(* std::lexicographical_compare over the coefficients: utils/symbols.h:120-130 (s_vector_compare, d_vector_compare).
   A vector is the list of its coefficients *)
Fixpoint vector_compare (a b : list T) : bool :=
  match a, b with
  | _, [] => false
  | [], _ :: _ => true
  | x :: a', y :: b' => if lt x y then true else if lt y x then false else vector_compare a' b'
  end.
End Lex.

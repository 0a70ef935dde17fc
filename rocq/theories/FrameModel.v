(* Model of fdaPDE/utils/data_structures/block_frame.h and block_vector.h.
   Simplifications, valid for the whole file: keys are natural numbers (std::string keys are only
   compared for equality); the list Ts... of value types is 0..nt-1 and all of them share one
   carrier V of values (a value of any of the types); an Eigen matrix is its column count and its
   list of rows; Eigen's own range assertions are off (NDEBUG), so a row or block out of range is
   UB.  The iteration order of std::unordered_map / unordered_set is an argument. *)
From Verif Require Import Base.

Section Frame.
Variable V : Type.
Variable Veqb : V -> V -> bool.

(* DMatrix<T> [DMatrix<T>, block_frame.h:43] *)
Record mat := Mat { mcols : nat; mdata : list (list V) }.
(* DMatrix<T>, block_frame.h:43 *)
Definition mrows (m : mat) : nat := length (mdata m).
(* m.row(i), i an int; out of range is UB [block_frame.h:143, 234, 248] *)
Definition row (m : mat) (i : Z) : Res (list V) :=
  if (i <? 0)%Z then UB else nth_res (mdata m) (Z.to_nat i).
(* m.middleRows(b, n) [block_frame.h:237-239, 260] *)
Definition middle_rows (m : mat) (b n : Z) : Res mat :=
  if (0 <=? b)%Z && (0 <=? n)%Z && (b + n <=? Z.of_nat (mrows m))%Z
  then Ok (Mat (mcols m) (firstn (Z.to_nat n) (skipn (Z.to_nat b) (mdata m)))) else UB.

(* std::unordered_map<std::string, DMatrix<T>>: an association list with distinct keys [at(key), block_frame.h:121, 128, 137] *)
Fixpoint find_key (k : nat) (l : list (nat * mat)) : option mat :=
  match l with [] => None | (k', m) :: t => if k =? k' then Some m else find_key k t end.
(* operator[](key) =, block_frame.h:88 *)
Fixpoint set_key (k : nat) (m : mat) (l : list (nat * mat)) : list (nat * mat) :=
  match l with
  | [] => [(k, m)]
  | (k', m') :: t => if k =? k' then (k, m) :: t else (k', m') :: set_key k m t
  end.
(* erase(key), block_frame.h:193 *)
Fixpoint erase_key (k : nat) (l : list (nat * mat)) : list (nat * mat) :=
  match l with [] => [] | (k', m') :: t => if k =? k' then t else (k', m') :: erase_key k t end.

(* block_frame.h:43-49 data_, columns_, rows_, dirty_bits_ *)
Record frame := Frame {
  data : nat -> list (nat * mat);   (* std::get<t>(data_) *)
  columns : list nat;
  frows : nat;
  dirty : list bool
}.
(* block_frame.h:52-53 *)
Definition frame0 (rows : nat) : frame := Frame (fun _ => []) [] rows [].

(* block_frame.h:69-71 *)
Definition has_block (k : nat) (f : frame) : bool := existsb (Nat.eqb k) (columns f).
(* std::distance(begin, std::find(begin, end, k)) [block_frame.h:75, 80, 94, 194] *)
Fixpoint position (k : nat) (l : list nat) : nat :=
  match l with [] => 0 | x :: t => if k =? x then 0 else S (position k t) end.

(* block_frame.h:60-67 dirty_cols *)
Definition dirty_cols (f : frame) : Res (list nat) :=
  foldM (fun acc i =>
    b <- nth_res (dirty f) i ;;
    if (b : bool) then c <- nth_res (columns f) i ;; Ok (acc ++ [c]) else Ok acc) (seq 0 (length (dirty f))) [].
(* block_frame.h:73-76 clear_dirty_bit *)
Definition clear_dirty_bit (k : nat) (f : frame) : Res frame :=
  if has_block k f then
    d <- upd_res (dirty f) (position k (columns f)) false ;; Ok (Frame (data f) (columns f) (frows f) d)
  else Ok f.
(* block_frame.h:78-81 is_dirty *)
Definition is_dirty (k : nat) (f : frame) : Res bool :=
  if has_block k f then nth_res (dirty f) (position k (columns f)) else Ok false.

(* std::get<t>(data_) = l [block_frame.h:88, 193] *)
Definition set_type (d : nat -> list (nat * mat)) (t : nat) (l : list (nat * mat)) : nat -> list (nat * mat) :=
  fun t' => if t' =? t then l else d t'.

(* block_frame.h:84-99 insert *)
Definition insert (t k : nat) (m : mat) (dirty_bit : bool) (f : frame) : Res frame :=
  _ <- assert_ ((frows f =? 0) || (mrows m =? frows f)) ;;
  let dt := set_type (data f) t (set_key k m (data f t)) in
  let r := if frows f =? 0 then mrows m else frows f in
  if has_block k f then
    d <- upd_res (dirty f) (position k (columns f)) dirty_bit ;; Ok (Frame dt (columns f) r d)
  else Ok (Frame dt (columns f ++ [k]) r (dirty f ++ [dirty_bit])).

(* block_frame.h:101-113 stack: the column i is copied to rows i*n .. i*n+n-1 *)
Definition stacked (m : mat) : Res mat :=
  let n := mrows m in
  rows <- foldM (fun acc i =>
      foldM (fun acc r =>
        rw <- nth_res (mdata m) r ;; x <- nth_res rw i ;; upd_res acc (i * n + r) [x]) (seq 0 n) acc)
    (seq 0 (mcols m)) (repeat [] (n * mcols m)) ;;
  Ok (Mat 1 rows).
Definition stack (t k : nat) (m : mat) (f : frame) : Res frame :=
  s <- stacked m ;; insert t k s true f.

(* block_frame.h:117-129 get: both the explicit check and std::unordered_map::at throw *)
Definition get (t k : nat) (f : frame) : Res mat :=
  if has_block k f then match find_key k (data f t) with Some m => Ok m | None => Throw end else Throw.

(* equality of rows used by unordered_set / unordered_map (operator== of Eigen on 1 x n blocks) *)
Fixpoint row_eqb (a b : list V) : bool :=
  match a, b with
  | [], [] => true
  | x :: a', y :: b' => Veqb x y && row_eqb a' b'
  | _, _ => false
  end.
Fixpoint row_find (r : list V) (l : list (list V * nat)) : option nat :=
  match l with [] => None | (r', i) :: t => if row_eqb r r' then Some i else row_find r t end.
(* block_frame.h:131-150 extract_unique.  [ord]: iteration order of the unordered_set [uniques].
   row_map[x] = i is executed only for x not yet in the map, hence appends. *)
Definition extract_unique (ord : list (list V) -> list (list V)) (t k : nat) (f : frame) : Res mat :=
  m <- get t k f ;;
  let '(uniques, row_map, i) :=
    fold_left (fun '(uniques, row_map, i) r =>
      if existsb (row_eqb r) uniques then (uniques, row_map, i)
      else (uniques ++ [r], row_map ++ [(r, i)], S i)) (mdata m) ([], [], 0) in
  rows <- foldM (fun acc r =>
      match row_find r row_map with Some i => upd_res acc i r | None => Throw end)
    (ord uniques) (repeat [] (length uniques)) ;;
  Ok (Mat (mcols m) rows).

(* block_frame.h:218-261 BlockView: constructors and get, idx_ is a vector of int *)
Inductive view := VRow (i : Z) | VRange (b e : Z) | VSparse (l : list Z).
Definition view_get (v : view) (t k : nat) (f : frame) : Res mat :=
  m <- get t k f ;;
  match v with
  | VRow i => r <- row m i ;; Ok (Mat (mcols m) [r])
  | VRange b e => middle_rows m b (e - b + 1)
  | VSparse l => rs <- mapM (row m) l ;; Ok (Mat (mcols m) rs)
  end.
(* block_frame.h:264-288 get with two or more keys: blocks are put side by side, the number of
   rows being the one of the view.  An assignment between blocks of different heights is UB. *)
Definition view_rows (v : view) : Z :=
  match v with VRow _ => 1 | VRange b e => e - b + 1 | VSparse l => Z.of_nat (length l) end.
Definition view_get_many (v : view) (t : nat) (ks : list nat) (f : frame) : Res mat :=
  ms <- mapM (fun k => get t k f) ks ;;
  let cols := list_sum (map mcols ms) in
  if (view_rows v <? 0)%Z then UB else
  rows <- foldM (fun acc k =>
      b <- view_get v t k f ;;
      if mrows b =? length acc then Ok (map (fun '(a, r) => a ++ r) (combine acc (mdata b))) else UB)
    ks (repeat [] (Z.to_nat (view_rows v))) ;;
  Ok (Mat cols rows).

(* block_frame.h:153-161, 172-174 *)
Definition at_row (i : Z) : view := VRow i.
Definition at_range (b e : Z) : view := VRange b e.
Definition at_list (l : list Z) : view := VSparse l.
Definition tail (b : Z) (f : frame) : view := VRange b (Z.of_nat (frows f) - 1).
Definition head (e : Z) (f : frame) : view := VRange 0 e.

(* block_frame.h:163-170 col, the assertion is as written: cols() < idx *)
Definition col (t k : nat) (idx : Z) (f : frame) : Res (list V) :=
  m <- get t k f ;;
  _ <- assert_ (Z.of_nat (mcols m) <? idx)%Z ;;
  if (idx <? 0)%Z || (Z.of_nat (mcols m) <=? idx)%Z then UB
  else mapM (fun r => nth_res r (Z.to_nat idx)) (mdata m).

(* block_frame.h:209-216, 290-298 extract: per type, per (key, block) pair in the iteration order
   [ord] of the map, insert the viewed block into an initially empty frame *)
Definition extract (nt : nat) (ord : list nat -> list nat) (v : view) (f : frame) : Res frame :=
  foldM (fun g t =>
    foldM (fun g k => m <- view_get v t k f ;; insert t k m true g) (ord (map fst (data f t))) g)
    (seq 0 nt) (frame0 0).

(* block_frame.h:177-188 shuffle: [perm] is what std::shuffle makes of 0 .. rows_-1 *)
Definition shuffle (nt : nat) (ord : list nat -> list nat) (perm : list nat -> list nat) (f : frame) : Res frame :=
  extract nt ord (VSparse (map Z.of_nat (perm (seq 0 (frows f))))) f.

Fixpoint remove_nth {A} (i : nat) (l : list A) : list A :=
  match l, i with [], _ => [] | _ :: t, 0 => t | h :: t, S j => h :: remove_nth j t end.
(* block_frame.h:191-198 remove: vector::erase(end()) is undefined *)
Definition remove (t k : nat) (f : frame) : Res frame :=
  let dt := set_type (data f) t (erase_key k (data f t)) in
  let p := position k (columns f) in
  if p <? length (columns f) then Ok (Frame dt (remove_nth p (columns f)) (frows f) (remove_nth p (dirty f)))
  else UB.
End Frame.
Arguments Mat {V}. Arguments mcols {V}. Arguments mdata {V}. Arguments mrows {V}.
Arguments data {V}. Arguments columns {V}. Arguments frows {V}. Arguments dirty {V}. Arguments Frame {V}.
Arguments frame0 {V}.

(* block_vector.h:24-41.  Offsets are unbounded integers; an Eigen block out of range is UB. *)
Section BVec.
Variable V : Type.
Record bvec := BVec { bn : nat; bm : nat; bdata : list V }.
Definition bvec_init (zero : V) (n m : nat) : bvec := BVec n m (repeat zero (n * m)).   (* 31 *)
(* an Eigen block expression: start and length, checked against the vector [block_vector.h:32-38] *)
Definition span (b : bvec) (start len : Z) : Res (nat * nat) :=
  if (0 <=? start)%Z && (0 <=? len)%Z && (start + len <=? Z.of_nat (length (bdata b)))%Z
  then Ok (Z.to_nat start, Z.to_nat len) else UB.
Definition bv_block (b : bvec) (i : nat) := span b (Z.of_nat i * Z.of_nat (bm b)) (Z.of_nat (bm b)).            (* 32 *)
Definition bv_blocks (b : bvec) (i j : nat) := span b (Z.of_nat i * Z.of_nat (bm b)) (Z.of_nat j * Z.of_nat (bm b)). (* 33-35 *)
Definition bv_head (b : bvec) (i : nat) := span b 0 (Z.of_nat i * Z.of_nat (bm b)).                              (* 37 *)
Definition bv_tail (b : bvec) (i : nat) :=
  span b ((Z.of_nat (bn b) - Z.of_nat i) * Z.of_nat (bm b)) (Z.of_nat i * Z.of_nat (bm b)).                      (* 38 *)
(* reading and assigning the returned block [block_vector.h:32-38, use of the returned blocks] *)
Definition sp_read (b : bvec) (s : nat * nat) : list V := firstn (snd s) (skipn (fst s) (bdata b)).
(* block_vector.h:32-38, use of the returned blocks *)
Definition sp_write (b : bvec) (s : nat * nat) (x : list V) : Res bvec :=
  if length x =? snd s
  then Ok (BVec (bn b) (bm b) (firstn (fst s) (bdata b) ++ x ++ skipn (fst s + snd s) (bdata b))) else UB.
End BVec.
Arguments bn {V}. Arguments bm {V}. Arguments bdata {V}. Arguments BVec {V}.

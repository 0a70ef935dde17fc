(* Model of the shapefile and dBase readers (fdaPDE/utils/IO/shp_reader.h).  A byte is an integer in [0, 255]; a file is its
   list of bytes; the host is little-endian.  A double is its 64-bit pattern.  int counters are not bounded in the model
   (files over 2 GB are out of scope).  Reading bytes the file does not have is undefined behaviour (the buffer is allocated
   but not initialised there). *)
From Coq Require Export ZArith List.
From Verif Require Export Base.
Export ListNotations.
Local Open Scope Z_scope.

(* ---------------------------------------------------------------- scalars *)
(* the value of w bytes in memory, least significant first [*reinterpret_cast<T*>, shp_reader.h:40, 46] *)
Fixpoint le_value (mem : list Z) : Z := match mem with [] => 0 | b :: r => b + 256 * le_value r end.
(* *reinterpret_cast<T*>, shp_reader.h:40, 46 *)
Definition signed (w : nat) (v : Z) : Z := if v <? 2 ^ (8 * Z.of_nat w - 1) then v else v - 2 ^ (8 * Z.of_nat w).
(* read<T>(buff, head, BigEndian), 36-41: byte j of the buffer goes to result[w - j - 1] *)
Definition copy_be (w : nat) (buff : list Z) (head : nat) : Res (list Z) :=
  foldM (fun mem j => b <- nth_res buff (head + j) ;; upd_res mem (w - j - 1) b) (seq 0 w) (repeat 0 w).
(* read<T>(buff, head, LittleEndian), 42-47 *)
Definition copy_le (w : nat) (buff : list Z) (head : nat) : Res (list Z) :=
  foldM (fun mem j => b <- nth_res buff (head + (w - j - 1)) ;; upd_res mem (w - j - 1) b) (seq 0 w) (repeat 0 w).

(* readers: buffer and head to value and new head [buff and head of shp_reader.h:36, 42] *)
Definition reader (A : Type) := list Z -> nat -> Res (A * nat).
(* buff and head of shp_reader.h:36, 42 *)
Definition ret {A} (a : A) : reader A := fun _ h => Ok (a, h).
(* buff and head of shp_reader.h:36, 42 *)
Definition andthen {A B} (p : reader A) (f : A -> reader B) : reader B := fun b h => r <- p b h ;; f (fst r) b (snd r).
Notation "x <~ p ;; k" := (andthen p (fun x => k)) (at level 61, p at next level, right associativity).
(* shp_reader.h:50, 262 *)
Definition skip (n : nat) : reader unit := fun _ h => Ok (tt, (h + n)%nat).
(* shp_reader.h:36-41 *)
Definition read_be (w : nat) : reader Z := fun b h => m <- copy_be w b h ;; Ok (signed w (le_value m), (h + w)%nat).
(* shp_reader.h:42-47 *)
Definition read_le (w : nat) : reader Z := fun b h => m <- copy_le w b h ;; Ok (signed w (le_value m), (h + w)%nat).
(* read<double>: the bit pattern [shp_reader.h:42-47] *)
Definition read_double : reader Z := fun b h => m <- copy_le 8 b h ;; Ok (le_value m, (h + 8)%nat).
(* shp_reader.h:190, 222, 225 *)
Definition int32_be := read_be 4.
(* shp_reader.h:96, 123-128, 226-227 *)
Definition int32_le := read_le 4.
(* for (i = 0; i < n; ++i) l[i] = p; a negative n makes resize throw *)
Fixpoint times {A} (n : nat) (p : reader A) : reader (list A) :=
  match n with O => ret [] | S n' => x <~ p ;; l <~ times n' p ;; ret (x :: l) end.
Definition times_int {A} (n : Z) (p : reader A) : reader (list A) := fun b h => if n <? 0 then Throw else times (Z.to_nat n) p b h.

(* ---------------------------------------------------------------- records *)
(* ShapeType, shp_reader.h:210-214 *)
Inductive shape := SPoint | SPointZ | SPointM | SPolyLine | SPolyLineZ | SPolyLineM | SPolygon | SPolygonZ | SPolygonM | SMultiPoint | SMultiPointZ | SMultiPointM.
(* ShapeType, 206-210 *)
Definition shape_of (st : Z) : option shape :=
  match st with
  | 1 => Some SPoint | 3 => Some SPolyLine | 5 => Some SPolygon | 8 => Some SMultiPoint
  | 11 => Some SPointZ | 13 => Some SPolyLineZ | 15 => Some SPolygonZ | 18 => Some SMultiPointZ
  | 21 => Some SPointM | 23 => Some SPolyLineM | 25 => Some SPolygonM | 28 => Some SMultiPointM
  | _ => None
  end.
(* an uninitialised member is None [sf_point_t, shp_reader.h:60-65] *)
Record point := Point { p_x : Z; p_y : Z; p_z : option Z; p_m : option Z }.
(* sf_point_t(record_number, file), 66-75 *)
Definition read_point (st : shape) : reader point :=
  x <~ read_double ;;
  y <~ read_double ;;
  match st with
  | SPointM => m <~ read_double ;; ret (Point x y None (Some m))
  | SPointZ => z <~ read_double ;; m <~ read_double ;; ret (Point x y (Some z) (Some m))
  | _ => ret (Point x y None None)
  end.
(* sf_multipoint_t, 77-108 *)
Record multipoint := MultiPoint { mp_bbox : list Z; mp_n : Z; mp_x : list Z; mp_y : list Z; mp_z : list Z; mp_m : list Z;
                                  mp_zrange : option (Z * Z); mp_mrange : option (Z * Z) }.
(* read_zm_block, 79-84: the vector points is a parameter passed by value; the values read go to the copy, which is
   dropped on return, so that only the range is handed back *)
Definition read_zm_block (n : Z) (points : list Z) : reader ((Z * Z) * list Z) :=
  a <~ read_double ;;
  b <~ read_double ;;
  copy <~ times_int n read_double ;;
  ret ((a, b), points).
Definition read_multipoint (st : shape) : reader multipoint :=
  bbox <~ times 4 read_double ;;
  n <~ int32_le ;;
  xy <~ times_int n (x <~ read_double ;; y <~ read_double ;; ret (x, y)) ;;
  let x := map fst xy in
  let y := map snd xy in
  match st with
  | SMultiPointM => m <~ read_zm_block n [] ;; ret (MultiPoint bbox n x y [] (snd m) None (Some (fst m)))
  | SMultiPointZ => z <~ read_zm_block n [] ;; m <~ read_zm_block n [] ;; ret (MultiPoint bbox n x y (snd z) (snd m) (Some (fst z)) (Some (fst m)))
  | _ => ret (MultiPoint bbox n x y [] [] None None)
  end.
(* sf_polygon_t, 110-157 *)
Record polygon := Polygon { pg_bbox : list Z; pg_rings : Z; pg_n : Z; ring_begin : list Z; ring_end : list Z; pg_points : list point;
                            pg_zrange : option (Z * Z); pg_mrange : option (Z * Z) }.
(* ring_end, 131-137 *)
Definition ends (begins : list Z) (n_points : Z) : list Z :=
  if (length begins =? 1)%nat then [n_points] else map (fun b => b - 1) (tl begins) ++ [n_points].
Definition set_z (p : point) (z : Z) : point := Point (p_x p) (p_y p) (Some z) (p_m p).
Definition set_m (p : point) (m : Z) : point := Point (p_x p) (p_y p) (p_z p) (Some m).
Definition zip_with {A B C} (f : A -> B -> C) (l : list A) (l' : list B) : list C := map (fun ab => f (fst ab) (snd ab)) (combine l l').
Definition read_polygon (st : shape) : reader polygon :=
  bbox <~ times 4 read_double ;;
  n_rings <~ int32_le ;;
  n_points <~ int32_le ;;
  begins <~ times_int n_rings int32_le ;;
  (* with n_rings = 0 line 136 writes ring_end[-1] *)
  _ <~ (fun b h => if n_rings =? 0 then UB else Ok (tt, h)) ;;
  pts <~ times_int n_points (x <~ read_double ;; y <~ read_double ;; ret (Point x y None None)) ;;
  match st with
  | SPolygonM | SPolyLineM =>
      a <~ read_double ;; b <~ read_double ;; ms <~ times_int n_points read_double ;;
      ret (Polygon bbox n_rings n_points begins (ends begins n_points) (zip_with set_m pts ms) None (Some (a, b)))
  | SPolygonZ | SPolyLineZ =>
      a <~ read_double ;; b <~ read_double ;; zs <~ times_int n_points read_double ;;
      c <~ read_double ;; d <~ read_double ;; ms <~ times_int n_points read_double ;;
      ret (Polygon bbox n_rings n_points begins (ends begins n_points) (zip_with set_m (zip_with set_z pts zs) ms) (Some (a, b)) (Some (c, d)))
  | _ => ret (Polygon bbox n_rings n_points begins (ends begins n_points) pts None None)
  end.
(* ring_iterator, 159-180: ring i is the range [points + ring_begin[i], points + ring_end[i]); an offset outside the vector
   is undefined *)
Definition ring (p : polygon) (i : nat) : Res (list point) :=
  b <- nth_res (ring_begin p) i ;;
  e <- nth_res (ring_end p) i ;;
  if (0 <=? b) && (b <=? e) && (e <=? Z.of_nat (length (pg_points p)))
  then Ok (firstn (Z.to_nat (e - b)) (skipn (Z.to_nat b) (pg_points p))) else UB.
(* for (auto ring : polygon), begin() / end() 178-179 *)
Definition all_rings (p : polygon) : Res (list (list point)) := mapM (ring p) (seq 0 (Z.to_nat (pg_rings p))).

(* read_into, 188-195: pairs (record number, record) *)
Fixpoint read_into {A} (fuel : nat) (content_length : Z) (rec : reader A) : reader (list (Z * A)) := fun b h =>
  if Z.of_nat h <? content_length then
    match fuel with
    | O => OutOfFuel
    | S fuel' => (num <~ int32_be ;; _ <~ skip 8 ;; r <~ rec ;; l <~ read_into fuel' content_length rec ;; ret ((num, r) :: l)) b h
    end
  else Ok ([], h).
Inductive content := Points (l : list (Z * point)) | Polys (l : list (Z * polygon)) | MultiPoints (l : list (Z * multipoint)) | Nothing.
Record shp := Shp { file_code : Z; file_length : Z; version : Z; shape_type : Z; bbox : list Z; n_records : nat; records : content }.
Definition header : reader (Z * Z * Z * Z * list Z) :=
  code <~ int32_be ;;
  _ <~ skip 20 ;;
  len <~ int32_be ;;
  ver <~ int32_le ;;
  st <~ int32_le ;;
  bb <~ times 8 read_double ;;
  ret (code, 2 * len, ver, st, bb).
(* shp_reader.h:188-195, 216-244 *)
Definition counted {A} (f : list A -> content) (code len ver st : Z) (bb : list Z) (l : list A) : shp :=
  Shp code len ver st bb (length l) (f l).
(* shp_reader(file_name) on an existing file, 216-248; new char[negative] throws *)
Definition read_shp (file : list Z) : Res shp :=
  hd <- header (firstn 100 file) 0%nat ;;
  let '(code, len, ver, st, bb) := fst hd in
  if len - 100 <? 0 then Throw else
  let b := firstn (Z.to_nat (len - 100)) (skipn 100 file) in
  let run {A} (rec : reader A) := read_into (S (Z.to_nat (len - 100))) (len - 100) rec b 0%nat in
  match shape_of st with
  | Some ((SPoint | SPointZ | SPointM) as s) => l <- run (read_point s) ;; Ok (counted Points code len ver st bb (fst l))
  | Some ((SPolyLine | SPolyLineZ | SPolyLineM | SPolygon | SPolygonZ | SPolygonM) as s) => l <- run (read_polygon s) ;; Ok (counted Polys code len ver st bb (fst l))
  | Some ((SMultiPoint | SMultiPointZ | SMultiPointM) as s) => l <- run (read_multipoint s) ;; Ok (counted MultiPoints code len ver st bb (fst l))
  | None => Ok (Shp code len ver st bb 0 Nothing)
  end.

(* ---------------------------------------------------------------- dBase tables *)
(* read<char>: one byte [shp_reader.h:303, 305, 323] *)
Definition read_char : reader Z := fun b h => m <- copy_le 1 b h ;; Ok (le_value m, (h + 1)%nat).
(* shp_reader.h:307, 311 *)
Definition read_int8 : reader Z := read_le 1.
(* shp_reader.h:264-271 *)
Record field := Field { f_name : list Z; f_type : Z; f_length : Z }.
(* name.erase(find(name, 0), end), 302 *)
Fixpoint until_zero (l : list Z) : list Z := match l with [] => [] | c :: r => if c =? 0 then [] else c :: until_zero r end.
Definition read_field : reader field :=
  name <~ times 11 read_char ;;
  ty <~ read_char ;;
  _ <~ skip 4 ;;
  len <~ read_int8 ;;
  _ <~ skip 15 ;;
  ret (Field (until_zero name) ty len).
(* data_: column name to values; a name never seen has no column [shp_reader.h:276] *)
Definition table := list (list Z * list (list Z)).
(* keys of data_, shp_reader.h:276 *)
Fixpoint bytes_eqb (a b : list Z) : bool :=
  match a, b with [], [] => true | x :: a', y :: b' => (x =? y) && bytes_eqb a' b' | _, _ => false end.
(* shp_reader.h:324 *)
Fixpoint push (t : table) (name : list Z) (v : list Z) : table :=
  match t with
  | [] => [(name, [v])]
  | (n, vs) :: r => if bytes_eqb n name then (n, vs ++ [v]) :: r else (n, vs) :: push r name v
  end.
(* shp_reader.h:276 *)
Fixpoint column (t : table) (name : list Z) : option (list (list Z)) :=
  match t with [] => None | (n, vs) :: r => if bytes_eqb n name then Some vs else column r name end.
(* one record, 317-325: a loop up to a negative length reads nothing *)
Fixpoint read_values (fs : list field) (t : table) : reader table :=
  match fs with
  | [] => ret t
  | f :: r => v <~ times (Z.to_nat (f_length f)) read_char ;; read_values r (push t (f_name f) v)
  end.
Fixpoint read_rows (n : nat) (fs : list field) (t : table) : reader table :=
  match n with O => ret t | S n' => _ <~ skip 1 ;; t' <~ read_values fs t ;; read_rows n' fs t' end.
Record dbf := Dbf { fields : list field; data : table }.
(* dbf_reader(file_name) on an existing file, 278-332; C++ division truncates; new char[negative] throws; a wrong
   terminator ends the construction with no data *)
Definition read_dbf (file : list Z) : Res dbf :=
  hd <- (_ <~ skip 4 ;; n <~ read_le 4 ;; hl <~ read_le 2 ;; rl <~ read_le 2 ;; ret (n, hl, rl)) (firstn 32 file) 0%nat ;;
  let '(n, hl, rl) := fst hd in
  let n_fields := Z.quot (hl - 33) 32 in
  let size := n_fields * 32 + 1 + rl * n in
  if size <? 0 then Throw else
  let b := firstn (Z.to_nat size) (skipn 32 file) in
  fs <- times (Z.to_nat n_fields) read_field b 0%nat ;;
  e <- read_int8 b (snd fs) ;;
  if negb (fst e =? 13) then Ok (Dbf (fst fs) [])
  else t <- read_rows (Z.to_nat n) (fst fs) [] b (snd e) ;; Ok (Dbf (fst fs) (fst t)).

Section GetAs.
(* std::from_chars: None leaves the variable as it is *)
Variables (T : Type) (zero : T) (from_chars : list Z -> option T).
(* shp_reader.h:338-344 *)
Fixpoint convert (val : T) (l : list (list Z)) : list T :=
  match l with [] => [] | v :: r => let val' := match from_chars v with Some x => x | None => val end in val' :: convert val' r end.
(* get_as<T>, 333-346 *)
Definition get_as (d : dbf) (name : list Z) : Res (list T) :=
  match column (data d) name with None => Throw | Some vs => Ok (convert zero vs) end.
End GetAs.
Definition get_as_string (d : dbf) (name : list Z) : Res (list (list Z)) :=
  match column (data d) name with None => Throw | Some vs => Ok vs end.

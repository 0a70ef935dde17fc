(* Model of CSVReader<T> (fdaPDE/utils/IO/csv_reader.h).  A std::string is a list of characters; the file is its list of
   bytes.  The reading of a number from a token (std::istringstream >> x) is external: it is an argument of the model, None
   meaning that the extraction leaves the variable untouched (empty token: the sentry fails before any conversion; with a
   malformed token the standard stores zero). *)
From Coq Require Export Ascii List ZArith.
From Verif Require Export Base.
Export ListNotations.

Notation str := (list ascii).
(* delimiter of getline, csv_reader.h:83, 86, 95, 98, 128, 138 *)
Definition nl : ascii := "010"%char.
(* csv_reader.h:84, 100, 129, 140 *)
Definition comma : str := [","%char].
(* std::string == [keys of reserved_tokens_, csv_reader.h:104] *)
Fixpoint str_eqb (a b : str) : bool :=
  match a, b with
  | [], [] => true
  | x :: a', y :: b' => Ascii.eqb x y && str_eqb a' b'
  | _, _ => false
  end.
(* a match of s.find(sep), csv_reader.h:47 *)
Fixpoint prefix (p s : str) : bool :=
  match p, s with
  | [], _ => true
  | x :: p', y :: s' => Ascii.eqb x y && prefix p' s'
  | _ :: _, [] => false
  end.
(* std::string::find: first position where sep occurs; None is npos [csv_reader.h:47] *)
Fixpoint find_str (sep s : str) : option nat :=
  if prefix sep s then Some 0 else match s with [] => None | _ :: s' => option_map S (find_str sep s') end.
(* split_string, 42-53.  With an empty separator find always returns 0 and erases nothing: fuel runs out *)
Fixpoint split_string (fuel : nat) (s sep : str) : Res (list str) :=
  match fuel with
  | O => OutOfFuel
  | S fuel' =>
      match find_str sep s with
      | None => Ok [s]
      | Some j => rest <- split_string fuel' (skipn (j + length sep) s) sep ;; Ok (firstn j s :: rest)
      end
  end.
Definition split (s sep : str) : Res (list str) := split_string (S (length s)) s sep.
(* remove_char with the filter (blank and double quote), 40, 55-63 *)
Definition remove_char (s : str) (cs : list ascii) : str := filter (fun c => negb (existsb (Ascii.eqb c) cs)) s.
Definition filter_ : list ascii := [" "%char; """"%char].
(* successive getline: the final newline does not start a further line [csv_reader.h:83] *)
Fixpoint get_line (s : str) : str * str :=
  match s with [] => ([], []) | c :: s' => if Ascii.eqb c nl then ([], s') else let '(l, r) := get_line s' in (c :: l, r) end.
(* csv_reader.h:83-98 *)
Fixpoint get_lines (fuel : nat) (s : str) : list str :=
  match fuel with
  | O => []
  | S fuel' => match s with [] => [] | _ => let '(l, r) := get_line s in l :: get_lines fuel' r end
  end.
(* csv_reader.h:83-98 *)
Definition lines (s : str) : list str := get_lines (length s) s.
(* reserved_tokens_, 35-39 *)
Definition reserved (t : str) : bool :=
  str_eqb t ["N"; "A"]%char || str_eqb t ["N"; "a"; "N"]%char || str_eqb t ["n"; "a"; "n"]%char.

Section Reader.
Variables (T : Type) (nan : T) (parse : str -> option T) (parse_index : str -> option Z).
(* the cells of the resized matrix are indeterminate (None) until written; a write outside the matrix is undefined [parsed_file, csv_reader.h:89-90] *)
Record matrix := Mat { m_rows : nat; m_cols : nat; cell : nat -> nat -> option T }.
(* csv_reader.h:106, 109 *)
Definition write (m : matrix) (i j : nat) (v : T) : Res matrix :=
  if (i <? m_rows m) && (j <? m_cols m)
  then Ok (Mat (m_rows m) (m_cols m) (fun a b => if (a =? i) && (b =? j) then Some v else cell m a b)) else UB.
(* csv_reader.h:106, 109 *)
Definition in_range (m : matrix) (i j : nat) : bool := (i <? m_rows m) && (j <? m_cols m).
(* 100-109: one token; ss >> parsed_file(row, col-1) forms the reference even when nothing is extracted *)
Definition store_token (m : matrix) (row col : nat) (tok : str) : Res matrix :=
  let t := remove_char tok filter_ in
  if reserved t then write m row (col - 1) nan
  else match parse t with
       | Some v => write m row (col - 1) v
       | None => if in_range m row (col - 1) then Ok m else UB
       end.
Definition store_line (m : matrix) (row : nat) (line : str) : Res matrix :=
  toks <- split line comma ;;
  foldM (fun m col => tok <- nth_res toks col ;; store_token m row col tok) (seq 1 (length toks - 1)) m.
(* parse_file<Eigen::Dense>, 75-117.  On a file without lines the first getline leaves the line empty. *)
Definition parse_dense (file : str) : Res matrix :=
  let ls := lines file in
  toks <- split (hd [] ls) comma ;;
  let rows := length (tl ls) in
  foldM (fun m row => l <- nth_res (tl ls) row ;; store_line m row l) (seq 0 rows)
    (Mat rows (length toks - 1) (fun _ _ => None)).

(* parse_file<Eigen::Sparse>, 120-166: state of the loop is (row, col, val, n_row, n_col, triplets) *)
Record sstate := SState { s_row : Z; s_col : Z; s_val : T; s_nrow : Z; s_ncol : Z; s_trip : list (Z * Z * T) }.
Definition keep {A} (o : option A) (old : A) : A := match o with Some v => v | None => old end.
Definition sparse_line (st : sstate) (line : str) : Res sstate :=
  toks <- split line comma ;;
  t1 <- nth_res toks 1 ;;
  t2 <- nth_res toks 2 ;;
  let row := keep (parse_index (remove_char t1 filter_)) (s_row st) in
  let col := keep (parse_index (remove_char t2 filter_)) (s_col st) in
  t3 <- nth_res toks 3 ;;
  let t := remove_char t3 filter_ in
  let val := if reserved t then nan else keep (parse t) (s_val st) in
  Ok (SState row col val (if (s_nrow st <? row)%Z then row else s_nrow st) (if (s_ncol st <? col)%Z then col else s_ncol st)
        (s_trip st ++ [((row - 1)%Z, (col - 1)%Z, val)])).
(* the result: sizes and triplets handed to setFromTriplets, which needs indexes in range [csv_reader.h:119-166] *)
Definition parse_sparse (val0 : T) (file : str) : Res (Z * Z * list (Z * Z * T)) :=
  let ls := lines file in
  toks <- split (hd [] ls) comma ;;
  _ <- assert_ (length toks - 1 =? 3) ;;
  st <- foldM sparse_line (tl ls) (SState 0 0 val0 0 0 []) ;;
  if forallb (fun t => let '(i, j, _) := t in (0 <=? i)%Z && (i <? s_nrow st)%Z && (0 <=? j)%Z && (j <? s_ncol st)%Z) (s_trip st)
  then Ok (s_nrow st, s_ncol st, s_trip st) else UB.
End Reader.
Arguments Mat {T}. Arguments m_rows {T}. Arguments m_cols {T}. Arguments cell {T}.

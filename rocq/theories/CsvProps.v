(* C81, C82, C117: CSV files. *)
From Coq Require Import Lia.
From Verif Require Import CsvModel.

(* ------------------------------------------------------------------ specification *)
Fixpoint join (sep : str) (toks : list str) : str :=
  match toks with [] => [] | [t] => t | t :: toks' => t ++ sep ++ join sep toks' end.
Definition occurs (sep s : str) : Prop := exists a b, s = a ++ sep ++ b.
Definition free (sep s : str) : Prop := ~ occurs sep s.
(* the text of a file with the given lines; the last newline may be missing *)
Definition text (ls : list str) : str := flat_map (fun l => l ++ [nl]) ls.
Definition file_of (ls : list str) (f : str) : Prop := f = text ls \/ (exists l ls', ls = ls' ++ [l] /\ l <> [] /\ f = text ls' ++ l).

(* ------------------------------------------------------------------ strings *)
Lemma str_eqb_spec a : forall b, str_eqb a b = true <-> a = b.
Proof.
  induction a as [|x a IH]; intros [|y b]; cbn; try (intuition discriminate).
  rewrite Bool.andb_true_iff, Ascii.eqb_eq, IH. split; [intros [-> ->]; auto|]. intros H. injection H as -> ->. auto.
Qed.
Lemma prefix_spec p : forall s, prefix p s = true <-> exists b, s = p ++ b.
Proof.
  induction p as [|x p IH]; intros s; cbn; [split; eauto|]. destruct s as [|y s].
  - split; [discriminate|]. intros [b H]. discriminate.
  - rewrite Bool.andb_true_iff, Ascii.eqb_eq, IH. split.
    + intros [-> [b ->]]. now exists b.
    + intros [b H]. injection H as -> ->. eauto.
Qed.
Lemma find_none sep s : find_str sep s = None -> free sep s.
Proof.
  induction s as [|c s IH]; cbn; intros H (a & b & E).
  - destruct (prefix sep []) eqn:P; [discriminate|]. symmetry in E. apply app_eq_nil in E as [-> E]. apply app_eq_nil in E as [-> ->]. discriminate.
  - destruct (prefix sep (c :: s)) eqn:P; [discriminate|]. destruct (find_str sep s) eqn:F; [discriminate|]. destruct a as [|c' a].
    + assert (prefix sep (c :: s) = true) by (apply prefix_spec; now exists b). congruence.
    + injection E as -> E. apply IH; [reflexivity|]. now exists a, b.
Qed.
Lemma find_some sep s : forall j, find_str sep s = Some j ->
  s = firstn j s ++ sep ++ skipn (j + length sep) s /\ (sep <> [] -> free sep (firstn j s)) /\ (j + length sep <= length s)%nat.
Proof.
  induction s as [|c s IH]; intros j; cbn [find_str].
  - destruct (prefix sep []) eqn:P; [|discriminate]. intros H. injection H as <-. apply prefix_spec in P as [b E].
    symmetry in E. apply app_eq_nil in E as [-> ->]. cbn. split; [reflexivity|]. split; [contradiction|lia].
  - destruct (prefix sep (c :: s)) eqn:P.
    + intros H. injection H as <-. apply prefix_spec in P as [b E]. rewrite E. cbn [firstn app Nat.add].
      rewrite skipn_app, Nat.sub_diag, skipn_all. cbn [skipn app]. split; [reflexivity|]. split; [|rewrite app_length; lia].
      intros Hs (x & y & E'). symmetry in E'. apply app_eq_nil in E' as [_ E']. apply app_eq_nil in E' as [E' _]. contradiction.
    + destruct (find_str sep s) as [k|] eqn:F; [|discriminate]. cbn. intros H. injection H as <-. destruct (IH k eq_refl) as (E & Hf & Hl).
      cbn [firstn skipn Nat.add app length]. split; [f_equal; exact E|]. split; [|lia].
      intros Hs (a & b & E'). destruct a as [|c' a].
      * assert (Hp : prefix sep (c :: s) = true); [|congruence]. apply prefix_spec. exists (b ++ sep ++ skipn (k + length sep) s).
        rewrite E at 1. change (c :: firstn k s ++ sep ++ skipn (k + length sep) s) with ((c :: firstn k s) ++ sep ++ skipn (k + length sep) s).
        rewrite E'. cbn [app]. now rewrite <- app_assoc.
      * injection E' as -> E'. apply Hf; auto. now exists a, b.
Qed.

(* ------------------------------------------------------------------ C81 *)
Lemma split_string_spec sep : sep <> [] -> forall fuel s, (length s < fuel)%nat ->
  exists toks, split_string fuel s sep = Ok toks /\ toks <> [] /\ join sep toks = s /\ (forall t, In t toks -> free sep t).
Proof.
  intros Hs. induction fuel as [|fuel IH]; intros s Hl; [lia|]. cbn [split_string]. destruct (find_str sep s) as [j|] eqn:F.
  - destruct (find_some sep s j F) as (E & Hf & Hle). assert (0 < length sep) by (destruct sep; [contradiction|cbn; lia]).
    destruct (IH (skipn (j + length sep) s)) as (toks & Ht & Hne & Hj & Hfr); [rewrite skipn_length; lia|].
    rewrite Ht. cbn [bind]. eexists. split; [reflexivity|]. split; [discriminate|]. split.
    + destruct toks as [|t toks]; [contradiction|]. cbn [join]. fold join. cbn [join] in Hj. rewrite Hj. now rewrite <- E.
    + intros t [<-|Hin]; [now apply Hf|now apply Hfr].
  - exists [s]. split; [reflexivity|]. split; [discriminate|]. split; [reflexivity|]. intros t [<-|[]]. now apply find_none.
Qed.
Theorem C81_split s sep : sep <> [] -> exists toks, split s sep = Ok toks /\ toks <> [] /\ join sep toks = s /\
  forall t, In t toks -> free sep t.
Proof. intros Hs. apply split_string_spec; auto. Qed.
(* with a one-character separator there is no other way to cut the line *)
Lemma free_char c s : free [c] s <-> ~ In c s.
Proof.
  unfold free, occurs. split; intros H K; apply H.
  - apply in_split in K as (a & b & ->). now exists a, b.
  - destruct K as (a & b & ->). apply in_or_app. right. now left.
Qed.
Lemma cut_unique (c : ascii) a : forall a' b b', ~ In c a -> ~ In c a' -> a ++ c :: b = a' ++ c :: b' -> a = a' /\ b = b'.
Proof.
  induction a as [|x a IH]; intros [|y a'] b b' H H' E; cbn in E.
  - injection E as ->. auto.
  - injection E as -> E. exfalso. apply H'. now left.
  - injection E as -> E. exfalso. apply H. now left.
  - injection E as -> E. destruct (IH a' b b') as [-> ->]; [intros K; apply H; now right|intros K; apply H'; now right|auto|auto].
Qed.
Lemma join_unique c toks : forall toks', toks <> [] -> toks' <> [] -> (forall t, In t toks -> free [c] t) -> (forall t, In t toks' -> free [c] t) ->
  join [c] toks = join [c] toks' -> toks = toks'.
Proof.
  induction toks as [|t toks IH]; intros toks' Hn Hn' Hf Hf' E; [contradiction|]. destruct toks' as [|t' toks']; [contradiction|].
  assert (Ft : ~ In c t) by (apply free_char, Hf; now left). assert (Ft' : ~ In c t') by (apply free_char, Hf'; now left).
  destruct toks as [|t2 toks], toks' as [|t2' toks'].
  - cbn in E. now subst.
  - cbn [join] in E. exfalso. apply Ft. rewrite E. apply in_or_app. right. now left.
  - cbn [join] in E. exfalso. apply Ft'. rewrite <- E. apply in_or_app. right. now left.
  - change (t ++ c :: join [c] (t2 :: toks) = t' ++ c :: join [c] (t2' :: toks')) in E. destruct (cut_unique c t t' _ _ Ft Ft' E) as [-> E2]. f_equal.
    apply IH; try discriminate; auto; intros x Hx; [apply Hf|apply Hf']; now right.
Qed.
Theorem C81_split_join c toks : toks <> [] -> (forall t, In t toks -> ~ In c t) -> split (join [c] toks) [c] = Ok toks.
Proof.
  intros Hn Hf. destruct (C81_split (join [c] toks) [c]) as (toks' & E & Hn' & Hj & Hf'); [discriminate|]. rewrite E. f_equal.
  symmetry. apply (join_unique c); auto. intros t Ht. now apply free_char, Hf.
Qed.
(* an empty separator: the loop never ends *)
Theorem C81_empty_separator_refuted s fuel : split_string fuel s [] = OutOfFuel.
Proof.
  revert s. induction fuel as [|fuel IH]; intros s; [reflexivity|]. cbn [split_string].
  assert (find_str [] s = Some 0) by (destruct s; reflexivity). rewrite H. cbn. now rewrite IH.
Qed.

(* ------------------------------------------------------------------ lines *)
Lemma get_line_nl l r : ~ In nl l -> get_line (l ++ nl :: r) = (l, r).
Proof.
  induction l as [|c l IH]; intros H; cbn; [reflexivity|]. destruct (Ascii.eqb_spec c nl) as [->|_]; [exfalso; apply H; now left|].
  rewrite IH by (intros K; apply H; now right). reflexivity.
Qed.
Lemma get_line_last l : ~ In nl l -> get_line l = (l, []).
Proof.
  induction l as [|c l IH]; intros H; cbn; [reflexivity|]. destruct (Ascii.eqb_spec c nl) as [->|_]; [exfalso; apply H; now left|].
  rewrite IH by (intros K; apply H; now right). reflexivity.
Qed.
Lemma get_lines_text ls : (forall l, In l ls -> ~ In nl l) -> forall fuel rest, (length (text ls) + length rest <= fuel)%nat ->
  get_lines fuel (text ls ++ rest) = ls ++ get_lines (fuel - length ls) rest.
Proof.
  induction ls as [|l ls IH]; intros H fuel rest Hf; cbn [text flat_map app length]; [now rewrite Nat.sub_0_r|].
  destruct fuel as [|fuel].
  - exfalso. cbn [text flat_map] in Hf. rewrite !app_length in Hf. cbn in Hf. lia.
  - cbn [get_lines]. replace ((l ++ [nl]) ++ flat_map (fun l0 => l0 ++ [nl]) ls) with (l ++ nl :: text ls) by (now rewrite <- app_assoc).
    rewrite <- app_assoc. cbn [app]. rewrite (get_line_nl l (text ls ++ rest)) by (apply H; now left).
    assert (E : exists c s, l ++ nl :: text ls ++ rest = c :: s) by (destruct l; cbn; eauto). destruct E as (c & s & ->).
    f_equal. rewrite IH; [reflexivity| |].
    + intros l' Hl'. apply H. now right.
    + cbn [text flat_map] in Hf. rewrite !app_length in Hf. cbn in Hf. unfold text in *. lia.
Qed.
Lemma lines_file ls f : (forall l, In l ls -> ~ In nl l) -> file_of ls f -> lines f = ls.
Proof.
  intros H [->|(l & ls' & -> & Hl & ->)]; unfold lines.
  - rewrite <- (app_nil_r (text ls)) at 2. rewrite get_lines_text by (auto; cbn; lia).
    destruct (_ - _); cbn; apply app_nil_r.
  - rewrite get_lines_text; [|intros x Hx; apply H, in_or_app; now left|rewrite app_length; lia]. f_equal.
    assert (B : length ls' <= length (text ls')) by (clear; induction ls' as [|x ls' IH]; cbn; [lia|rewrite app_length, app_length; cbn; unfold text in IH; lia]).
    rewrite app_length. destruct (length (text ls') + length l - length ls') as [|n] eqn:E; [destruct l; [contradiction|cbn in E; lia]|].
    destruct l as [|c l]; [contradiction|]. change (get_lines (S n) (c :: l)) with (let '(x, r) := get_line (c :: l) in x :: get_lines n r).
    rewrite get_line_last by (apply H, in_or_app; right; now left).
    destruct n; reflexivity.
Qed.

(* ------------------------------------------------------------------ C82 *)
Lemma filter_same tok : remove_char tok filter_ = filter (fun c => negb (Ascii.eqb c " "%char) && negb (Ascii.eqb c """"%char)) tok.
Proof. unfold remove_char. apply filter_ext. intros c. cbn. now rewrite Bool.orb_false_r, Bool.negb_orb. Qed.
Lemma reserved_spec t : reserved t = true <-> In t [["N"; "A"]%char; ["N"; "a"; "N"]%char; ["n"; "a"; "n"]%char].
Proof. unfold reserved. rewrite !Bool.orb_true_iff, !str_eqb_spec. cbn. intuition. Qed.
Section Dense.
Variables (T : Type) (nan : T) (parse : str -> option T).
(* what a token stands for: blanks and quotes do not count; None when there is nothing to read *)
Definition value (tok : str) : option T :=
  let t := filter (fun c => negb (Ascii.eqb c " "%char) && negb (Ascii.eqb c """"%char)) tok in
  if in_dec (list_eq_dec Ascii.ascii_dec) t [["N"; "A"]%char; ["N"; "a"; "N"]%char; ["n"; "a"; "n"]%char] then Some nan else parse t.
Definition set_cell (m : matrix T) (i j : nat) (o : option T) : matrix T :=
  match o with Some v => Mat (m_rows m) (m_cols m) (fun a b => if (a =? i) && (b =? j) then Some v else cell m a b) | None => m end.
Lemma store_token_ok m row col tok : row < m_rows m -> col - 1 < m_cols m ->
  store_token T nan parse m row col tok = Ok (set_cell m row (col - 1) (value tok)).
Proof.
  intros Hr Hc. apply Nat.ltb_lt in Hr, Hc. unfold store_token, value. rewrite filter_same.
  set (t := filter _ tok). destruct (in_dec _ t _) as [I|N].
  - apply reserved_spec in I. rewrite I. unfold write. rewrite Hr, Hc. reflexivity.
  - destruct (reserved t) eqn:E; [apply reserved_spec in E; contradiction|]. destruct (parse t); cbn [set_cell].
    + unfold write. now rewrite Hr, Hc.
    + unfold in_range. now rewrite Hr, Hc.
Qed.
Lemma set_cell_dims m i j o : m_rows (set_cell m i j o) = m_rows m /\ m_cols (set_cell m i j o) = m_cols m.
Proof. destruct o; auto. Qed.
Lemma set_cell_cell m i j o a b : cell (set_cell m i j o) a b =
  if (a =? i) && (b =? j) then match o with Some v => Some v | None => cell m a b end else cell m a b.
Proof. destruct o; cbn; destruct (_ && _); reflexivity. Qed.
Lemma store_line_ok m row toks : row < m_rows m -> length toks = S (m_cols m) -> (forall t, In t toks -> ~ In ","%char t) ->
  (forall b, cell m row b = None) ->
  exists m', store_line T nan parse m row (join comma toks) = Ok m' /\ m_rows m' = m_rows m /\ m_cols m' = m_cols m /\
    (forall a b, a <> row -> cell m' a b = cell m a b) /\
    (forall b, b < m_cols m -> cell m' row b = value (nth (S b) toks [])).
Proof.
  intros Hr Hl Hf H0. unfold store_line, comma. rewrite C81_split_join by (auto; destruct toks; discriminate). cbn [bind].
  rewrite Hl. cbn [Nat.sub]. rewrite Nat.sub_0_r.
  assert (G : forall n, n <= m_cols m -> exists m', foldM (fun m col => tok <- nth_res toks col ;; store_token T nan parse m row col tok) (seq 1 n) m = Ok m' /\
    m_rows m' = m_rows m /\ m_cols m' = m_cols m /\ (forall a b, a <> row -> cell m' a b = cell m a b) /\
    (forall b, cell m' row b = if b <? n then value (nth (S b) toks []) else None)).
  { induction n as [|n IH]; intros Hn.
    - exists m. repeat split; auto.
    - destruct IH as (m' & E & R & C & O & V); [lia|]. rewrite seq_S, foldM_app, E. cbn [bind foldM Nat.add].
      rewrite (proj2 (nth_res_ok toks (S n) (nth (S n) toks []))) by (apply nth_error_nth'; lia). cbn [bind].
      rewrite store_token_ok by (rewrite ?R, ?C; lia). eexists. split; [reflexivity|].
      destruct (set_cell_dims m' row (S n - 1) (value (nth (S n) toks []))) as [-> ->]. split; [auto|]. split; [auto|]. split.
      + intros a b Ha. rewrite set_cell_cell. apply Nat.eqb_neq in Ha. rewrite Ha. cbn. apply O. now apply Nat.eqb_neq.
      + intros b. rewrite set_cell_cell, Nat.eqb_refl. cbn [andb]. cbn [Nat.sub]. rewrite Nat.sub_0_r.
        destruct (Nat.eqb_spec b n) as [->|Nb].
        * rewrite V, Nat.ltb_irrefl. destruct (Nat.ltb_spec n (S n)); [|lia]. now destruct (value _).
        * rewrite V. destruct (Nat.ltb_spec b n), (Nat.ltb_spec b (S n)); try lia; reflexivity. }
  destruct (G (m_cols m) (le_n _)) as (m' & E & R & C & O & V). exists m'. repeat split; auto.
  intros b Hb. rewrite V. apply Nat.ltb_lt in Hb. now rewrite Hb.
Qed.
(* the parsed matrix: right size, no out-of-range write, cell (i, j) from token j + 1 of data line i *)
Theorem C82_dense_partial header rows f : header <> [] ->
  (forall t, In t header -> ~ In ","%char t /\ ~ In nl t) ->
  (forall r, In r rows -> length r = length header /\ forall t, In t r -> ~ In ","%char t /\ ~ In nl t) ->
  file_of (map (join comma) (header :: rows)) f ->
  exists m, parse_dense T nan parse f = Ok m /\ m_rows m = length rows /\ m_cols m = length header - 1 /\
    forall i j r, nth_error rows i = Some r -> j < length header - 1 -> cell m i j = value (nth (S j) r []).
Proof.
  intros Hh Hhf Hrows Hfile. unfold parse_dense.
  assert (NL : forall toks, (forall t, In t toks -> ~ In ","%char t /\ ~ In nl t) -> ~ In nl (join comma toks)).
  { induction toks as [|t toks IH]; intros Ht; [intros []|]. destruct toks as [|t2 toks].
    - cbn. apply Ht. now left.
    - change (join comma (t :: t2 :: toks)) with (t ++ comma ++ join comma (t2 :: toks)). intros K. apply in_app_or in K as [K|K].
      + revert K. apply Ht. now left.
      + apply in_app_or in K as [[K|[]]|K]; [discriminate|]. revert K. apply IH. intros x Hx. apply Ht. now right. }
  rewrite (lines_file (map (join comma) (header :: rows)) f); auto.
  2:{ intros l Hl. apply in_map_iff in Hl as (toks & <- & [<-|Hin]); apply NL; auto. now apply Hrows. }
  cbn [map hd tl]. unfold comma at 1. rewrite C81_split_join by (auto; intros t Ht; now apply Hhf). cbn [bind]. rewrite map_length.
  set (m0 := Mat (length rows) (length header - 1) (fun _ _ => None)).
  assert (G : forall n, n <= length rows -> exists m, foldM (fun m row => l <- nth_res (map (join comma) rows) row ;; store_line T nan parse m row l) (seq 0 n) m0 = Ok m /\
    m_rows m = length rows /\ m_cols m = length header - 1 /\
    (forall i r, i < n -> nth_error rows i = Some r -> forall j, j < length header - 1 -> cell m i j = value (nth (S j) r [])) /\
    (forall i j, n <= i -> cell m i j = None)).
  { induction n as [|n IH]; intros Hn.
    - exists m0. repeat split; auto. intros; lia.
    - destruct IH as (m & E & R & C & V & U); [lia|]. rewrite seq_S, foldM_app, E. cbn [bind foldM Nat.add].
      destruct (nth_error rows n) as [r|] eqn:Er; [|apply nth_error_None in Er; lia].
      rewrite (proj2 (nth_res_ok _ n (join comma r))) by (now apply map_nth_error). cbn [bind].
      destruct (Hrows r (nth_error_In _ _ Er)) as [Hrl Hrf].
      destruct (store_line_ok m n r) as (m' & E' & R' & C' & O' & V'); [lia|rewrite Hrl, C; destruct header; [contradiction|cbn; lia]|intros t Ht; now apply Hrf|intros b; apply U; lia|].
      rewrite E'. cbn [bind]. exists m'. split; [reflexivity|]. split; [congruence|]. split; [congruence|]. split.
      + intros i r' Hi Hi' j Hj. destruct (Nat.eq_dec i n) as [->|Ne].
        * rewrite Er in Hi'. injection Hi' as <-. apply V'. lia.
        * rewrite O' by auto. apply (V i r'); auto. lia.
      + intros i j Hi. rewrite O' by lia. apply U. lia. }
  destruct (G (length rows) (le_n _)) as (m & E & R & C & V & U). exists m. rewrite E. repeat split; auto.
  intros i j r Hi Hj. apply (V i r); auto. apply nth_error_Some. congruence.
Qed.
End Dense.

(* an empty token leaves the cell of the resized matrix indeterminate *)
Theorem C82_empty_token_refuted T (nan : T) parse : parse [] = None -> exists f m,
  file_of (map (join comma) [[["i"%char]; ["a"%char]; ["b"%char]]; [["1"%char]; []; ["2"%char]]]) f /\
  parse_dense T nan parse f = Ok m /\ m_rows m = 1 /\ m_cols m = 2 /\ cell m 0 0 = None.
Proof.
  intros Hp. eexists. destruct (C82_dense_partial T nan parse [["i"%char]; ["a"%char]; ["b"%char]] [[["1"%char]; []; ["2"%char]]]
     (text (map (join comma) [[["i"%char]; ["a"%char]; ["b"%char]]; [["1"%char]; []; ["2"%char]]]))) as (m & E & R & C & V).
  - discriminate.
  - intros t Ht. cbn in Ht. intuition subst; cbn in *; intuition discriminate.
  - intros r [<-|[]]. split; [reflexivity|]. intros t Ht. cbn in Ht. intuition subst; cbn in *; intuition discriminate.
  - now left.
  - exists m. split; [now left|]. split; [exact E|]. split; [exact R|]. split; [exact C|].
    rewrite (V 0 0 _ eq_refl) by (cbn; lia). cbn. unfold value. cbn. exact Hp.
Qed.
(* a data line longer than the header writes outside the matrix *)
Theorem C82_long_line_refuted T (nan : T) parse : parse_dense T nan parse
  (text (map (join comma) [[["i"%char]; ["a"%char]]; [["1"%char]; ["2"%char]; ["3"%char]]])) = UB.
Proof.
  unfold parse_dense. cbn. destruct (parse ["2"%char]); cbn; destruct (parse ["3"%char]); reflexivity.
Qed.

(* ------------------------------------------------------------------ C117 *)
Section Sparse.
Variables (T : Type) (nan : T) (parse : str -> option T) (parse_index : str -> option Z).
Definition clean (tok : str) : str := filter (fun c => negb (Ascii.eqb c " "%char) && negb (Ascii.eqb c """"%char)) tok.
(* a data line: row label, row, column, value; the numbers are readable and indexes start from one *)
Definition entry_line (r : list str) (e : Z * Z * T) : Prop :=
  let '(i, j, v) := e in length r = 4 /\ (forall t, In t r -> ~ In ","%char t /\ ~ In nl t) /\
    (1 <= i)%Z /\ (1 <= j)%Z /\ parse_index (clean (nth 1 r [])) = Some i /\ parse_index (clean (nth 2 r [])) = Some j /\
    value T nan parse (nth 3 r []) = Some v.
(* the largest index, zero for no entry *)
Definition largest (l : list Z) : Z := fold_right Z.max 0%Z l.
Lemma largest_app l x : largest (l ++ [x]) = Z.max (largest l) x \/ (x < 0)%Z.
Proof.
  destruct (Z.lt_ge_cases x 0) as [L|G]; [now right|left]. induction l as [|y l IH]; cbn [app largest fold_right]; [lia|]. fold (largest (l ++ [x])) (largest l). rewrite IH. lia.
Qed.
Lemma largest_ge l x : In x l -> (x <= largest l)%Z.
Proof. induction l as [|y l IH]; intros []; cbn [largest fold_right]; fold (largest l); [subst; lia|]. specialize (IH H). lia. Qed.
Theorem C117_sparse_partial val0 header rows es f : length header = 4 ->
  (forall t, In t header -> ~ In ","%char t /\ ~ In nl t) -> Forall2 entry_line rows es ->
  file_of (map (join comma) (header :: rows)) f ->
  parse_sparse T nan parse parse_index val0 f =
    Ok (largest (map (fun e => fst (fst e)) es), largest (map (fun e => snd (fst e)) es), map (fun e => ((fst (fst e) - 1)%Z, (snd (fst e) - 1)%Z, snd e)) es).
Proof.
  intros Hh Hhf Hrows Hfile. unfold parse_sparse.
  assert (NL : forall toks, (forall t, In t toks -> ~ In ","%char t /\ ~ In nl t) -> ~ In nl (join comma toks)).
  { induction toks as [|t toks IH]; intros Ht; [intros []|]. destruct toks as [|t2 toks].
    - cbn. apply Ht. now left.
    - change (join comma (t :: t2 :: toks)) with (t ++ comma ++ join comma (t2 :: toks)). intros K. apply in_app_or in K as [K|K].
      + revert K. apply Ht. now left.
      + apply in_app_or in K as [[K|[]]|K]; [discriminate|]. revert K. apply IH. intros x Hx. apply Ht. now right. }
  rewrite (lines_file (map (join comma) (header :: rows)) f); auto.
  2:{ intros l Hl. apply in_map_iff in Hl as (toks & <- & [<-|Hin]); apply NL; auto. clear Hfile.
      induction Hrows as [|r [[i j] v] rs es' (_ & H & _) _ IH]; [destruct Hin|]. destruct Hin as [<-|Hin]; auto. }
  cbn [map hd tl]. unfold comma at 1. rewrite C81_split_join; [|intros ->; discriminate|intros t Ht; now apply Hhf]. cbn [bind]. rewrite Hh. cbn [Nat.sub Nat.eqb assert_ bind].
  assert (G : forall st, foldM (sparse_line T nan parse parse_index) (map (join comma) rows) st = Ok st \/ rows <> []) by (destruct rows; [now left|right; discriminate]).
  clear G Hfile.
  assert (G : forall pre st, s_nrow T st = largest (map (fun e : Z * Z * T => fst (fst e)) pre) -> s_ncol T st = largest (map (fun e => snd (fst e)) pre) ->
     s_trip T st = map (fun e => ((fst (fst e) - 1)%Z, (snd (fst e) - 1)%Z, snd e)) pre ->
     exists st', foldM (sparse_line T nan parse parse_index) (map (join comma) rows) st = Ok st' /\
       s_nrow T st' = largest (map (fun e => fst (fst e)) (pre ++ es)) /\ s_ncol T st' = largest (map (fun e => snd (fst e)) (pre ++ es)) /\
       s_trip T st' = map (fun e => ((fst (fst e) - 1)%Z, (snd (fst e) - 1)%Z, snd e)) (pre ++ es)).
  { induction Hrows as [|r [[i j] v] rs es' Hr Hrs IH]; intros pre st Rn Cn Tr.
    - exists st. rewrite app_nil_r. auto.
    - destruct Hr as (Hl & Hf & Hi & Hj & Pi & Pj & Pv). cbn [map foldM]. unfold sparse_line at 1, comma at 1.
      rewrite C81_split_join; [|intros ->; discriminate|intros t Ht; now apply Hf]. cbn [bind].
      rewrite (proj2 (nth_res_ok r 1 (nth 1 r []))) by (apply nth_error_nth'; lia).
      rewrite (proj2 (nth_res_ok r 2 (nth 2 r []))) by (apply nth_error_nth'; lia).
      rewrite (proj2 (nth_res_ok r 3 (nth 3 r []))) by (apply nth_error_nth'; lia). cbn [bind].
      rewrite !filter_same. fold (clean (nth 1 r [])) (clean (nth 2 r [])). rewrite Pi, Pj. cbn [keep].
      assert (Ev : (if reserved (filter (fun c => negb (Ascii.eqb c " "%char) && negb (Ascii.eqb c """"%char)) (nth 3 r [])) then nan
         else keep (parse (filter (fun c => negb (Ascii.eqb c " "%char) && negb (Ascii.eqb c """"%char)) (nth 3 r []))) (s_val T st)) = v).
      { unfold value in Pv. destruct (in_dec _ _ _) as [I|N] in Pv.
        - apply reserved_spec in I. rewrite I. congruence.
        - destruct (reserved _) eqn:E; [apply reserved_spec in E; contradiction|]. rewrite Pv. reflexivity. }
      rewrite Ev. replace (pre ++ (i, j, v) :: es') with ((pre ++ [(i, j, v)]) ++ es') by (now rewrite <- app_assoc).
      apply IH; cbn [s_nrow s_ncol s_trip]; rewrite map_app; cbn [map fst snd].
      + destruct (largest_app (map (fun e : Z * Z * T => fst (fst e)) pre) i) as [->|]; [|lia]. rewrite Rn. destruct (Z.ltb_spec (largest (map (fun e : Z * Z * T => fst (fst e)) pre)) i); lia.
      + destruct (largest_app (map (fun e : Z * Z * T => snd (fst e)) pre) j) as [->|]; [|lia]. rewrite Cn. destruct (Z.ltb_spec (largest (map (fun e : Z * Z * T => snd (fst e)) pre)) j); lia.
      + now rewrite Tr. }
  destruct (G [] (SState T 0 0 val0 0 0 [])) as (st & E & Rn & Cn & Tr); try reflexivity. rewrite E. cbn [bind app] in *.
  rewrite Rn, Cn, Tr. destruct (forallb _ _) eqn:F; [reflexivity|exfalso]. apply Bool.not_true_iff_false in F. apply F. apply forallb_forall.
  intros [[a b] v] Hin. apply in_map_iff in Hin as ([[i j] w] & Heq & Hin). cbn [fst snd] in Heq. injection Heq as <- <- <-.
  assert (B : (1 <= i)%Z /\ (1 <= j)%Z). { clear -Hrows Hin. induction Hrows as [|r [[i' j'] v'] rs es' Hr _ IH]; [destruct Hin|]. destruct Hin as [Hq|Hin]; [injection Hq as <- <- <-; unfold entry_line in Hr; tauto|auto]. }
  assert (Li := largest_ge (map (fun e : Z * Z * T => fst (fst e)) es) i (in_map (fun e : Z * Z * T => fst (fst e)) _ _ Hin)).
  assert (Lj := largest_ge (map (fun e : Z * Z * T => snd (fst e)) es) j (in_map (fun e : Z * Z * T => snd (fst e)) _ _ Hin)).
  rewrite !Bool.andb_true_iff, !Z.leb_le, !Z.ltb_lt. lia.
Qed.
End Sparse.
(* a file whose first line has not four columns is refused *)
Theorem C117_wrong_format T (nan : T) parse parse_index val0 header rows f : header <> [] -> length header <> 4 ->
  (forall t, In t header -> ~ In ","%char t) -> (forall l, In l (join comma header :: rows) -> ~ In nl l) -> file_of (join comma header :: rows) f ->
  parse_sparse T nan parse parse_index val0 f = Throw.
Proof.
  intros Hn Hl Hf Hnl Hfile. unfold parse_sparse. rewrite (lines_file _ f Hnl Hfile). cbn [hd tl]. unfold comma at 1. rewrite C81_split_join by auto.
  cbn [bind]. destruct (Nat.eqb_spec (length header - 1) 3); [lia|reflexivity].
Qed.
(* an empty value repeats the value of the previous line *)
Theorem C117_empty_value_refuted (parse_index : str -> option Z) (parse : str -> option Z) nan val0 :
  (parse_index ["1"%char] = Some 1%Z) -> (parse_index ["2"%char] = Some 2%Z) -> parse ["7"%char] = Some 7%Z -> parse [] = None ->
  parse_sparse Z nan parse parse_index val0 (text (map (join comma)
    [[[]; ["i"%char]; ["j"%char]; ["v"%char]]; [["a"%char]; ["1"%char]; ["1"%char]; ["7"%char]]; [["b"%char]; ["2"%char]; ["2"%char]; []]])) =
  Ok (2%Z, 2%Z, [(0%Z, 0%Z, 7%Z); (1%Z, 1%Z, 7%Z)]).
Proof.
  intros H1 H2 H7 H0. unfold parse_sparse. cbn. rewrite H1, H2, H7, H0. reflexivity.
Qed.

(* the hypotheses are met: a header and a data line with quotes, blanks and a missing value *)
Example C82_example : let header := [[]; ["x"%char]; ["y"%char]] in let row := [[""""; "1"; """"]%char; [" "; "5"]%char; ["N"; "A"]%char] in
  (forall t, In t header -> ~ In ","%char t /\ ~ In nl t) /\ length row = length header /\ (forall t, In t row -> ~ In ","%char t /\ ~ In nl t) /\
  value nat 99 (fun t => if str_eqb t ["5"%char] then Some 5 else None) (nth 1 row []) = Some 5 /\
  value nat 99 (fun t => if str_eqb t ["5"%char] then Some 5 else None) (nth 2 row []) = Some 99.
Proof.
  cbn zeta. split; [|split; [reflexivity|split; [|split; reflexivity]]].
  - intros t Ht. cbn in Ht. intuition subst; cbn in *; intuition discriminate.
  - intros t Ht. cbn in Ht. intuition subst; cbn in *; intuition discriminate.
Qed.
Print Assumptions C81_split_join.
Print Assumptions C82_dense_partial.
Print Assumptions C117_sparse_partial.

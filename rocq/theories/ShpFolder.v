(* ShapeFile, shp_reader.h:354-404: the files of a folder, the name of the geographic coordinate system, and the printed summary.  The readers of
   the single files are those of ShpModel.  A file name or a text is a list of characters, the content of a file a list of bytes. *)
From Coq Require Import String Lia.
From Verif Require Import CsvModel ShpModel CsvProps.
Open Scope Z_scope.

Definition chars (s : string) : str := list_ascii_of_string s.
Definition as_text (bytes : list Z) : str := map (fun z => ascii_of_nat (Z.to_nat z)) bytes.
(* std::size_t and std::string::npos on a 64 bit machine *)
Definition npos : Z := 2 ^ 64 - 1.
Definition add64 (a b : Z) : Z := (a + b) mod 2 ^ 64.
Definition sub64 (a b : Z) : Z := (a - b) mod 2 ^ 64.
(* std::string::find(pattern, pos) *)
Definition find_from (pat s : str) (pos : Z) : Z :=
  if Z.of_nat (List.length s) <? pos then npos
  else match find_str pat (skipn (Z.to_nat pos) s) with Some k => pos + Z.of_nat k | None => npos end.
(* std::string::substr(pos, n): throws std::out_of_range past the end *)
Definition substr (s : str) (pos n : Z) : Res str :=
  let len := Z.of_nat (List.length s) in
  if len <? pos then Throw else Ok (firstn (Z.to_nat (Z.min n len)) (skipn (Z.to_nat pos) s)).

(* 362-365: the search for the last slash *)
Fixpoint last_slash (fuel : nat) (folder : str) (pos_start : Z) : Res (Z * Z) :=
  match fuel with
  | O => OutOfFuel
  | S fuel' =>
      let pos_end := find_from (chars "/") folder pos_start in
      if pos_end =? npos then Ok (pos_start, pos_end) else last_slash fuel' folder (add64 pos_end 1)
  end.
Definition file_name (folder : str) : Res str :=
  r <- last_slash (S (List.length folder)) folder 0 ;; substr folder (fst r) (sub64 (snd r) (fst r)).
(* 367-371 *)
Definition path (folder name : str) (extension : string) : str := folder ++ chars "/" ++ name ++ chars extension.
(* 373-378: the name of the coordinate system in the first line of the .prj file *)
Definition gcs_name (line : str) : Res str :=
  let i := add64 (find_from (chars "GEOGCS") line 0) 8 in
  let j := find_from (chars """") line i in
  substr line i (sub64 j i).

(* sf_shp is None when the .shp file could not be opened: its header_ is then indeterminate, 216 and 244-246 *)
Record shape_file := ShapeFile { sf_shp : option shp; sf_dbf : dbf; sf_gcs : str; sf_folder : str }.
Definition open {A} (file : option (list Z)) (missing : A) (read : list Z -> Res A) : Res A :=
  match file with None => Ok missing | Some b => read b end.
(* 361-381.  fs: the content of the file with a given name, None when it can not be opened *)
Definition shape_file_of (fs : str -> option (list Z)) (folder : str) : Res shape_file :=
  name <- file_name folder ;;
  shp <- open (fs (path folder name ".shp")) None (fun b => s <- read_shp b ;; Ok (Some s)) ;;
  dbf <- open (fs (path folder name ".dbf")) (Dbf [] []) read_dbf ;;
  gcs <- open (fs (path folder name ".prj")) (chars "UNDEFINED") (fun b => gcs_name (fst (get_line (as_text b)))) ;;
  Ok (ShapeFile shp dbf gcs folder).

(* operator<<, 385-403: the name of the shape (387-392) and the columns (398-401).  The other lines print stored numbers and are left out *)
Definition type_name (st : Z) : str :=
  if st =? 1 then chars "POINT" else if st =? 3 then chars "POLYLINE" else if st =? 5 then chars "POLYGON" else if st =? 8 then chars "MULTIPOINT" else [].
Definition printed_type (f : shape_file) : Res str := match sf_shp f with None => UB | Some s => Ok (type_name (shape_type s)) end.
Definition column_text (c : field) : str := as_text (f_name c) ++ chars "(" ++ as_text [f_type c] ++ chars ")".
Fixpoint print_loop (fuel : nat) (cols : list field) (i : Z) : Res str :=
  if i <? sub64 (Z.of_nat (List.length cols)) 1 then
    match fuel with
    | O => OutOfFuel
    | S fuel' => c <- nth_res cols (Z.to_nat i) ;; r <- print_loop fuel' cols (i + 1) ;; Ok (column_text c ++ chars ", " ++ r)
    end
  else Ok [].
Definition printed_columns (f : shape_file) : Res str :=
  let cols := fields (sf_dbf f) in
  l <- print_loop (S (List.length cols)) cols 0 ;;
  let last := sub64 (Z.of_nat (List.length cols)) 1 in
  c <- (if Z.of_nat (List.length cols) <=? last then UB else nth_res cols (Z.to_nat last)) ;;
  Ok (l ++ column_text c).

(* --- specification --- *)

(* pat occurs in s for the first time after a *)
Definition first_occurrence (pat s a : str) : Prop :=
  (exists b, s = a ++ pat ++ b) /\ forall a' b', s = a' ++ pat ++ b' -> (List.length a <= List.length a')%nat.
(* a name without a slash, and a folder with that name *)
Definition folder_named (folder name : str) : Prop := free (chars "/") name /\ (folder = name \/ exists parent, folder = parent ++ chars "/" ++ name).
(* strings on a 64 bit machine are shorter than this *)
Definition storable (s : str) : Prop := Z.of_nat (List.length s) < 2 ^ 62.

(* --- proofs --- *)

Lemma find_first pat s a : first_occurrence pat s a -> find_str pat s = Some (List.length a).
Proof.
  intros [[b E] Hmin]. destruct (find_str pat s) as [k|] eqn:F.
  - f_equal. destruct (find_some pat s k F) as (Ek & _ & Hk).
    assert (Hlen : List.length (firstn k s) = k) by (rewrite firstn_length; lia).
    pose proof (Hmin _ _ Ek) as H1. rewrite Hlen in H1.
    destruct (Nat.eq_dec k (List.length a)) as [|Hne]; [auto|]. exfalso.
    assert (Hlt : (List.length a < k)%nat) by lia. clear -F E Hlt. subst s. revert k F Hlt. induction a as [|c a IH]; intros k F Hlt.
    + cbn [app List.length] in *. assert (P : prefix pat (pat ++ b) = true) by (apply prefix_spec; now exists b).
      destruct (pat ++ b); cbn in F; rewrite P in F; injection F as <-; lia.
    + cbn in F. destruct (prefix pat (c :: a ++ pat ++ b)); [injection F as <-; cbn in Hlt; lia|].
      destruct (find_str pat (a ++ pat ++ b)) as [m|] eqn:Fm; [|discriminate]. injection F as <-. cbn in Hlt. apply (IH m); [reflexivity|lia].
  - exfalso. apply (find_none _ _ F). exists a, b. exact E.
Qed.
Lemma find_free pat s : free pat s -> find_str pat s = None.
Proof.
  intros H. destruct (find_str pat s) as [k|] eqn:F; [|reflexivity]. exfalso. destruct (find_some pat s k F) as (E & _). apply H. eexists _, _. exact E.
Qed.
Lemma add64_small a b : 0 <= a + b < 2 ^ 64 -> add64 a b = a + b.
Proof. intros H. apply Z.mod_small. exact H. Qed.
Lemma sub64_small a b : 0 <= a - b < 2 ^ 64 -> sub64 a b = a - b.
Proof. intros H. apply Z.mod_small. exact H. Qed.
Lemma find_skip pat (p q : str) : find_from pat (p ++ q) (Z.of_nat (List.length p)) =
  match find_str pat q with Some k => Z.of_nat (List.length p + k) | None => npos end.
Proof.
  unfold find_from. rewrite app_length. replace (Z.of_nat (List.length p + List.length q) <? Z.of_nat (List.length p)) with false by (symmetry; apply Z.ltb_ge; lia).
  rewrite Nat2Z.id, skipn_app, skipn_all, Nat.sub_diag. cbn [app skipn]. destruct (find_str pat q); [lia|reflexivity].
Qed.
Lemma substr_ok (p q r : str) n : n = Z.of_nat (List.length q) \/ (r = [] /\ Z.of_nat (List.length (p ++ q)) <= n) ->
  substr (p ++ q ++ r) (Z.of_nat (List.length p)) n = Ok q.
Proof.
  intros H. unfold substr. replace (Z.of_nat (List.length (p ++ q ++ r)) <? Z.of_nat (List.length p)) with false by (symmetry; apply Z.ltb_ge; rewrite app_length; lia).
  rewrite Nat2Z.id, skipn_app, skipn_all, Nat.sub_diag. cbn [app skipn]. f_equal. rewrite !app_length. destruct H as [-> |[-> H]].
  - rewrite Z.min_l by lia. rewrite Nat2Z.id, firstn_app, Nat.sub_diag, firstn_all. cbn [firstn]. apply app_nil_r.
  - rewrite app_length in H. cbn [List.length]. rewrite Z.min_r by lia. rewrite app_nil_r. apply firstn_all2. lia.
Qed.
Lemma slash_parts (l : str) : free (chars "/") l \/ exists a b, l = a ++ chars "/" ++ b /\ first_occurrence (chars "/") l a.
Proof.
  destruct (find_str (chars "/") l) as [k|] eqn:F; [|left; now apply find_none]. right.
  destruct (find_some _ _ _ F) as (E & Hf & Hk). specialize (Hf ltac:(discriminate)). eexists _, _. split; [exact E|]. split; [eexists; exact E|].
  intros a' b' E'. rewrite firstn_length, Nat.min_l by lia. destruct (le_lt_dec k (List.length a')) as [|Hlt]; [auto|]. exfalso. apply Hf.
  exists a', (firstn (k - List.length a' - 1) b'). rewrite E' at 1. rewrite firstn_app, firstn_all2 by lia. f_equal. rewrite firstn_app. cbn [chars list_ascii_of_string List.length].
  replace (k - List.length a')%nat with (S (k - List.length a' - 1)) at 1 by lia. cbn [firstn app]. f_equal. f_equal. destruct (k - List.length a' - 1)%nat; reflexivity.
Qed.
Lemma last_slash_ok name : free (chars "/") name -> forall n folder pre parent fuel, (List.length parent <= n)%nat -> (n < fuel)%nat ->
  folder = pre ++ parent ++ name -> (parent = [] \/ exists q, parent = q ++ chars "/") -> storable folder ->
  last_slash fuel folder (Z.of_nat (List.length pre)) = Ok (Z.of_nat (List.length (pre ++ parent)), npos).
Proof.
  intros Hfree. unfold storable. induction n as [|n IH]; intros folder pre parent fuel Hn Hf E Hp Hs; (destruct fuel as [|fuel]; [lia|]); cbn [last_slash].
  - assert (parent = []) by (destruct parent; [auto|cbn in Hn; lia]). subst parent. cbn [app] in E. subst folder. rewrite find_skip, (find_free _ _ Hfree). cbn. now rewrite app_nil_r.
  - destruct Hp as [->|(q & Eq)].
    + cbn [app] in E. subst folder. rewrite find_skip, (find_free _ _ Hfree). cbn. now rewrite app_nil_r.
    + destruct (slash_parts (parent ++ name)) as [Hno|(a & b & Ea & Hfirst)].
      { exfalso. apply Hno. exists q, name. rewrite Eq, <- app_assoc. reflexivity. }
      assert (Hle : (List.length a <= List.length q)%nat) by (apply (proj2 Hfirst q name); rewrite Eq, <- app_assoc; reflexivity).
      (* the rest of the parent after this slash *)
      assert (Hrest : exists parent', parent = a ++ chars "/" ++ parent' /\ (parent' = [] \/ exists q', parent' = q' ++ chars "/")).
      { destruct (Nat.eq_dec (List.length a) (List.length q)) as [Heq|Hneq].
        - exists []. split; [|auto]. rewrite Eq in Ea. rewrite <- app_assoc in Ea. assert (q = a); [|subst; now rewrite app_nil_r].
          clear -Ea Heq. revert a Ea Heq. induction q as [|x q IHq]; intros [|y a] Ea Heq; try discriminate; auto. cbn in *. injection Ea as -> Ea. f_equal. apply (IHq a); auto.
        - exists (skipn (S (List.length a)) parent).
          assert (Esplit : parent = a ++ chars "/" ++ skipn (S (List.length a)) parent).
          { assert (Hlp : (S (List.length a) <= List.length parent)%nat) by (rewrite Eq, app_length; change (List.length (chars "/")) with 1%nat; lia).
            rewrite <- (firstn_skipn (S (List.length a)) parent) at 1. rewrite app_assoc. f_equal.
            transitivity (firstn (S (List.length a)) (parent ++ name)).
            - rewrite firstn_app. replace (S (List.length a) - List.length parent)%nat with 0%nat by lia. cbn [firstn]. now rewrite app_nil_r.
            - rewrite Ea. rewrite app_assoc, firstn_app. replace (S (List.length a) - List.length (a ++ chars "/"))%nat with 0%nat by (rewrite app_length; change (List.length (chars "/")) with 1%nat; lia).
              change (firstn 0 b) with (@nil ascii). rewrite app_nil_r. apply firstn_all2. rewrite app_length. change (List.length (chars "/")) with 1%nat. lia. }
          split; [exact Esplit|]. right. exists (skipn (S (List.length a)) q). rewrite Eq, skipn_app.
          replace (S (List.length a) - List.length q)%nat with 0%nat by lia. reflexivity. }
      destruct Hrest as (parent' & Ep & Hp').
      assert (Ef : find_from (chars "/") folder (Z.of_nat (List.length pre)) = Z.of_nat (List.length pre + List.length a)).
      { rewrite E, find_skip, (find_first _ _ _ Hfirst). reflexivity. }
      assert (Hlen : (List.length pre + List.length a + 1 + List.length parent' + List.length name = List.length folder)%nat).
      { rewrite E, Ep, !app_length. cbn [chars list_ascii_of_string List.length]. lia. }
      rewrite Ef. replace (Z.of_nat (List.length pre + List.length a) =? npos) with false by (symmetry; apply Z.eqb_neq; unfold npos; lia).
      rewrite add64_small by lia.
      replace (Z.of_nat (List.length pre + List.length a) + 1) with (Z.of_nat (List.length (pre ++ a ++ chars "/"))) by (rewrite !app_length; cbn [chars list_ascii_of_string List.length]; lia).
      rewrite (IH folder (pre ++ a ++ chars "/") parent' fuel); auto.
      * f_equal. f_equal. f_equal. rewrite Ep, !app_length. lia.
      * rewrite Ep, !app_length in Hn. cbn [chars list_ascii_of_string List.length] in Hn. lia.
      * lia.
      * rewrite E, Ep. now rewrite <- !app_assoc.
Qed.

(* C170: the files that are read are those named after the last component of the folder *)
Theorem C170_files_partial : forall fs folder name, storable folder -> folder_named folder name ->
  shape_file_of fs folder =
    (shp <- open (fs (folder ++ chars "/" ++ name ++ chars ".shp")) None (fun b => s <- read_shp b ;; Ok (Some s)) ;;
     dbf <- open (fs (folder ++ chars "/" ++ name ++ chars ".dbf")) (Dbf [] []) read_dbf ;;
     gcs <- open (fs (folder ++ chars "/" ++ name ++ chars ".prj")) (chars "UNDEFINED") (fun b => gcs_name (fst (get_line (as_text b)))) ;;
     Ok (ShapeFile shp dbf gcs folder)).
Proof.
  intros fs folder name Hs [Hfree Hname].
  assert (E : file_name folder = Ok name).
  { unfold file_name. unfold storable in Hs.
    assert (H : exists parent, folder = parent ++ name /\ (parent = [] \/ exists q, parent = q ++ chars "/")).
    { destruct Hname as [->|(p & ->)]; [exists []; auto|]. exists (p ++ chars "/"). rewrite <- app_assoc. split; eauto. }
    destruct H as (parent & -> & Hp).
    assert (Hl : last_slash (S (List.length (parent ++ name))) (parent ++ name) 0 = Ok (Z.of_nat (List.length parent), npos)).
    { apply (last_slash_ok name Hfree (List.length (parent ++ name)) (parent ++ name) [] parent); auto. rewrite app_length. lia. }
    rewrite Hl. cbn [bind fst snd]. rewrite sub64_small by (rewrite app_length in Hs; unfold npos; lia).
    pose proof (substr_ok parent name [] (npos - Z.of_nat (List.length parent))) as X. rewrite app_nil_r in X. apply X. right. split; auto. rewrite app_length in *. unfold npos. lia. }
  unfold shape_file_of. rewrite E. reflexivity.
Qed.

(* the coordinate system is the text between the quotes after the first GEOGCS[ of the first line *)
Theorem C170_gcs_partial : forall fs folder name prj a gcs b f, storable folder -> folder_named folder name ->
  fs (folder ++ chars "/" ++ name ++ chars ".prj") = Some prj ->
  let line := a ++ chars "GEOGCS[""" ++ gcs ++ chars """" ++ b in
  (as_text prj = line \/ exists r, as_text prj = line ++ nl :: r) -> ~ In nl line ->
  first_occurrence (chars "GEOGCS") line a -> free (chars """") gcs -> storable line ->
  shape_file_of fs folder = Ok f -> sf_gcs f = gcs.
Proof.
  intros fs folder name prj a gcs b f Hs Hn Hprj line Htext Hnl Hfirst Hq Hl Hf.
  rewrite (C170_files_partial fs folder name Hs Hn), Hprj in Hf. cbn [open] in Hf.
  apply bind_ok in Hf as (sh & _ & Hf). apply bind_ok in Hf as (db & _ & Hf). apply bind_ok in Hf as (g & Hg & Hf). injection Hf as <-. cbn.
  assert (El : fst (get_line (as_text prj)) = line).
  { assert (H : forall l r, ~ In nl l -> get_line l = (l, []) /\ get_line (l ++ nl :: r) = (l, r)).
    { clear. induction l as [|c l IH]; intros r H; cbn.
      - auto.
      - assert (Hc : Ascii.eqb c nl = false) by (apply Ascii.eqb_neq; intros ->; apply H; now left). rewrite Hc.
        destruct (IH r) as [-> ->]; [intros X; apply H; now right|auto]. }
    destruct Htext as [->|(r & ->)]; [destruct (H line [] Hnl) as [-> _]|destruct (H line r Hnl) as [_ ->]]; reflexivity. }
  rewrite El in Hg. unfold gcs_name in Hg.
  assert (E0 : find_from (chars "GEOGCS") line 0 = Z.of_nat (List.length a)).
  { pose proof (find_skip (chars "GEOGCS") [] line) as X. cbn [app List.length] in X. rewrite (find_first _ _ _ Hfirst) in X. exact X. }
  unfold storable in Hl. assert (Hlen : (List.length line = List.length a + 8 + List.length gcs + 1 + List.length b)%nat).
  { unfold line. rewrite !app_length. cbn [chars list_ascii_of_string List.length]. lia. }
  rewrite E0, add64_small in Hg by lia.
  set (p := a ++ chars "GEOGCS[""") in *. assert (Eline : line = p ++ gcs ++ chars """" ++ b) by (unfold p, line; now rewrite <- app_assoc).
  assert (Ep : Z.of_nat (List.length a) + 8 = Z.of_nat (List.length p)) by (unfold p; rewrite app_length; cbn [chars list_ascii_of_string List.length]; lia).
  assert (Ej : find_from (chars """") line (Z.of_nat (List.length p)) = Z.of_nat (List.length p + List.length gcs)).
  { rewrite Eline, find_skip. rewrite (find_first (chars """") (gcs ++ chars """" ++ b) gcs); [reflexivity|]. split; [now exists b|].
    intros a' b' E. destruct (le_lt_dec (List.length gcs) (List.length a')) as [|Hlt]; [auto|]. exfalso. apply Hq.
    exists a', (skipn (S (List.length a')) gcs). clear -E Hlt. revert gcs E Hlt. induction a' as [|x a' IH]; intros [|y gcs] E Hlt; cbn in Hlt; try lia.
    - cbn in *. injection E as -> _. reflexivity.
    - cbn in E. injection E as -> E. cbn. f_equal. apply IH; [exact E|lia]. }
  rewrite Ep, Ej, sub64_small in Hg by lia. rewrite Eline in Hg. rewrite (substr_ok p gcs (chars """" ++ b)) in Hg by (left; lia). congruence.
Qed.
Theorem C170_no_prj : forall fs folder name f, storable folder -> folder_named folder name ->
  fs (folder ++ chars "/" ++ name ++ chars ".prj") = None -> shape_file_of fs folder = Ok f -> sf_gcs f = chars "UNDEFINED".
Proof.
  intros fs folder name f Hs Hn Hp Hf. rewrite (C170_files_partial fs folder name Hs Hn), Hp in Hf. cbn [open] in Hf.
  apply bind_ok in Hf as (sh & _ & Hf). apply bind_ok in Hf as (db & _ & Hf). cbn in Hf. now injection Hf as <-.
Qed.

(* a folder written with a final slash: the files opened have no name before their extension, whatever the folder contains *)
Theorem C170_slash_refuted : forall fs folder, storable (folder ++ chars "/") ->
  fs (folder ++ chars "//.shp") = None -> fs (folder ++ chars "//.dbf") = None -> fs (folder ++ chars "//.prj") = None ->
  shape_file_of fs (folder ++ chars "/") = Ok (ShapeFile None (Dbf [] []) (chars "UNDEFINED") (folder ++ chars "/")).
Proof.
  intros fs folder Hs H1 H2 H3. assert (Hn : folder_named (folder ++ chars "/") []).
  { split; [|right; exists folder; now rewrite app_nil_r]. intros (a & b & E). destruct a; discriminate. }
  rewrite (C170_files_partial fs _ [] Hs Hn). cbn [app]. rewrite <- !app_assoc.
  change (chars "/" ++ chars "/" ++ chars ".shp") with (chars "//.shp"). change (chars "/" ++ chars "/" ++ chars ".dbf") with (chars "//.dbf").
  change (chars "/" ++ chars "/" ++ chars ".prj") with (chars "//.prj"). rewrite H1, H2, H3. reflexivity.
Qed.
(* a .prj file without the keyword: a piece of its text is reported as the name, and a short one makes the constructor fail *)
Definition only_prj (text : string) (p : str) : option (list Z) :=
  if str_eqb p (chars "map/map.prj") then Some (map (fun c => Z.of_nat (nat_of_ascii c)) (chars text)) else None.
Theorem C170_gcs_refuted :
  (exists f, shape_file_of (only_prj "LOCAL_CS[""Site grid""]") (chars "map") = Ok f /\ sf_gcs f = chars "S[") /\
  shape_file_of (only_prj "") (chars "map") = Throw.
Proof. split; [eexists; split|]; vm_compute; reflexivity. Qed.

(* C171: the printed summary names the columns, separated by commas *)
Fixpoint listed (cols : list field) : str :=
  match cols with [] => [] | [c] => column_text c | c :: r => column_text c ++ chars ", " ++ listed r end.
Theorem C171_columns_partial : forall f, fields (sf_dbf f) <> [] -> Z.of_nat (List.length (fields (sf_dbf f))) < 2 ^ 62 ->
  printed_columns f = Ok (listed (fields (sf_dbf f))).
Proof.
  intros f Hne Hlen. unfold printed_columns. set (cols := fields (sf_dbf f)) in *.
  assert (Hpos : (0 < List.length cols)%nat) by (destruct cols; [contradiction|cbn; lia]).
  rewrite sub64_small by lia.
  assert (H : forall n i, (i + n = List.length cols)%nat -> (0 < n)%nat -> forall fuel, (n <= fuel)%nat ->
     exists l c, print_loop fuel cols (Z.of_nat i) = Ok l /\ nth_error cols (List.length cols - 1) = Some c /\ l ++ column_text c = listed (skipn i cols)).
  { induction n as [|n IH]; intros i Hi Hn fuel Hf; [lia|]. destruct fuel as [|fuel]; [lia|]. cbn [print_loop]. rewrite sub64_small by lia.
    destruct (nth_error cols i) as [c|] eqn:Ec; [|apply nth_error_None in Ec; lia].
    assert (Esk : skipn i cols = c :: skipn (S i) cols).
    { clear -Ec. revert i Ec. induction cols as [|x l IHl]; intros [|i] Ec; cbn in *; try discriminate; [now injection Ec as ->|]. rewrite (IHl i Ec). destruct l; reflexivity. }
    destruct (Z.ltb_spec (Z.of_nat i) (Z.of_nat (List.length cols) - 1)) as [Hlt|Hge].
    - rewrite Nat2Z.id. rewrite (proj2 (nth_res_ok _ _ _) Ec). cbn [bind].
      destruct (IH (S i) ltac:(lia) ltac:(lia) fuel ltac:(lia)) as (l & c' & El & Ec' & Eq).
      replace (Z.of_nat i + 1) with (Z.of_nat (S i)) by lia. rewrite El. cbn [bind]. exists (column_text c ++ chars ", " ++ l), c'. split; [reflexivity|]. split; [exact Ec'|].
      rewrite Esk. destruct (skipn (S i) cols) as [|c2 r] eqn:Er.
      + assert (List.length (skipn (S i) cols) = 0%nat) by now rewrite Er. rewrite skipn_length in H. lia.
      + cbn [listed]. rewrite <- !app_assoc. now rewrite Eq.
    - exists [], c. split; [reflexivity|]. split; [rewrite <- Ec; f_equal; lia|]. rewrite Esk.
      destruct (skipn (S i) cols) as [|c2 r] eqn:Er; [reflexivity|].
      assert (List.length (skipn (S i) cols) = S (List.length r)) by now rewrite Er. rewrite skipn_length in H. lia. }
  destruct (H (List.length cols) 0%nat ltac:(lia) Hpos (S (List.length cols)) ltac:(lia)) as (l & c & El & Ec & Eq). change (Z.of_nat 0) with 0 in El. rewrite El. cbn [bind].
  replace (Z.of_nat (List.length cols) <=? Z.of_nat (List.length cols) - 1) with false by (symmetry; apply Z.leb_gt; lia).
  replace (Z.to_nat (Z.of_nat (List.length cols) - 1)) with (List.length cols - 1)%nat by lia. rewrite (proj2 (nth_res_ok _ _ _) Ec). cbn [bind]. now rewrite Eq.
Qed.
Theorem C171_no_columns_refuted : forall f, fields (sf_dbf f) = [] -> printed_columns f = UB.
Proof. intros f H. unfold printed_columns. rewrite H. reflexivity. Qed.
Theorem C171_type_partial : forall f s, sf_shp f = Some s ->
  printed_type f = Ok (match shape_of (shape_type s) with
    | Some SPoint => chars "POINT" | Some SPolyLine => chars "POLYLINE" | Some SPolygon => chars "POLYGON" | Some SMultiPoint => chars "MULTIPOINT" | _ => [] end).
Proof.
  intros f s H. unfold printed_type. rewrite H. f_equal. unfold type_name, shape_of.
  repeat match goal with |- context [if ?a =? ?b then _ else _] => destruct (Z.eqb_spec a b) as [e|?]; [rewrite e; reflexivity|] end.
  destruct (shape_type s) as [|p|p]; try reflexivity. do 5 (destruct p as [p|p|]; try reflexivity; try contradiction).
Qed.
(* the shapes with z or m coordinates are printed without a name *)
Theorem C171_type_refuted : forall s, In s [SPointZ; SPolyLineZ; SPolygonZ; SMultiPointZ; SPointM; SPolyLineM; SPolygonM; SMultiPointM] ->
  exists st, shape_of st = Some s /\ forall f h, sf_shp f = Some h -> shape_type h = st -> printed_type f = Ok [].
Proof.
  intros s H. cbn in H.
  repeat destruct H as [<-|H]; try contradiction;
    match goal with |- exists st, shape_of st = Some ?s /\ _ =>
      let v := match s with SPointZ => constr:(11) | SPolyLineZ => constr:(13) | SPolygonZ => constr:(15) | SMultiPointZ => constr:(18)
        | SPointM => constr:(21) | SPolyLineM => constr:(23) | SPolygonM => constr:(25) | SMultiPointM => constr:(28) end in exists v end;
    (split; [reflexivity|]); intros f h Hf Hh; unfold printed_type; rewrite Hf, Hh; reflexivity.
Qed.

(* an empty shapefile, a table with two columns and no rows, a coordinate system *)
Definition map_shp : list Z := [0; 0; 39; 10] ++ repeat 0 20 ++ [0; 0; 0; 50] ++ [232; 3; 0; 0] ++ [5; 0; 0; 0] ++ repeat 0 64.
Definition map_dbf : list Z :=
  let col (n : Z) := n :: repeat 0 10 ++ [67; 0; 0; 0; 0; 4] ++ repeat 0 15 in
  [3; 0; 0; 0] ++ [0; 0; 0; 0] ++ [97; 0] ++ [9; 0] ++ repeat 0 20 ++ col 65 ++ col 66 ++ [13].
Definition map_fs (p : str) : option (list Z) :=
  if str_eqb p (chars "data/map/map.shp") then Some map_shp
  else if str_eqb p (chars "data/map/map.dbf") then Some map_dbf
  else if str_eqb p (chars "data/map/map.prj") then Some (map (fun c => Z.of_nat (nat_of_ascii c)) (chars "PROJCS[""UTM"",GEOGCS[""WGS 84"",DATUM]]"))
  else None.
Example C170_example : exists f, shape_file_of map_fs (chars "data/map") = Ok f /\ sf_gcs f = chars "WGS 84" /\
  printed_type f = Ok (chars "POLYGON") /\ printed_columns f = Ok (chars "A(C), B(C)").
Proof. eexists. split; [vm_compute; reflexivity|]. repeat split; vm_compute; reflexivity. Qed.

Print Assumptions C170_files_partial.
Print Assumptions C170_gcs_partial.
Print Assumptions C170_slash_refuted.
Print Assumptions C170_gcs_refuted.
Print Assumptions C171_columns_partial.
Print Assumptions C171_type_refuted.

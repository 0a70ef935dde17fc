(* C83-C86, C118, C119: shapefiles and dBase tables. *)
From Coq Require Import Lia.
From Verif Require Import ShpModel DofProps.
Local Open Scope Z_scope.

(* ------------------------------------------------------------------ specification: the encoders of the file formats *)
(* w bytes, least significant first, two's complement *)
Definition enc_le (w : nat) (v : Z) : list Z := map (fun j => (v / 256 ^ Z.of_nat j) mod 256) (seq 0 w).
Definition enc_be (w : nat) (v : Z) : list Z := rev (enc_le w v).
Definition fits (w : nat) (v : Z) : Prop := - 2 ^ (8 * Z.of_nat w - 1) <= v < 2 ^ (8 * Z.of_nat w - 1).
Definition pattern (v : Z) : Prop := 0 <= v < 2 ^ 64.
(* reading the bytes bs, wherever they are in the buffer, gives v and moves the head past them *)
Definition reads {A} (p : reader A) (bs : list Z) (v : A) : Prop :=
  forall pre post, p (pre ++ bs ++ post) (length pre) = Ok (v, (length pre + length bs)%nat).

(* ------------------------------------------------------------------ scalars *)
Lemma enc_le_length w v : length (enc_le w v) = w. Proof. unfold enc_le. now rewrite map_length, seq_length. Qed.
Lemma enc_be_length w v : length (enc_be w v) = w. Proof. unfold enc_be. now rewrite rev_length, enc_le_length. Qed.
Lemma le_value_enc w : forall v, le_value (enc_le w v) = v mod 2 ^ (8 * Z.of_nat w).
Proof.
  induction w as [|w IH]; intros v; [now rewrite Z.mod_1_r|].
  assert (E : enc_le (S w) v = (v mod 256) :: enc_le w (v / 256)).
  { unfold enc_le. cbn [seq map]. change (256 ^ Z.of_nat 0) with 1. rewrite Z.div_1_r. f_equal. rewrite <- seq_shift, map_map. apply map_ext. intros j.
    rewrite Nat2Z.inj_succ, Z.pow_succ_r by lia. now rewrite Z.div_div by lia. }
  rewrite E. cbn [le_value]. rewrite IH. replace (8 * Z.of_nat (S w)) with (8 * Z.of_nat w + 8) by lia. rewrite Z.pow_add_r by lia. change (2 ^ 8) with 256.
  rewrite (Z.mul_comm (2 ^ _) 256). rewrite Z.rem_mul_r by lia. lia.
Qed.
Lemma signed_mod w v : (0 < w)%nat -> fits w v -> signed w (v mod 2 ^ (8 * Z.of_nat w)) = v.
Proof.
  intros Hw [L H]. assert (E : 2 ^ (8 * Z.of_nat w) = 2 * 2 ^ (8 * Z.of_nat w - 1)).
  { rewrite <- Z.pow_succ_r by lia. f_equal. lia. }
  assert (P : 0 < 2 ^ (8 * Z.of_nat w - 1)) by (apply Z.pow_pos_nonneg; lia). unfold signed. rewrite E.
  set (q := 2 ^ (8 * Z.of_nat w - 1)) in *. destruct (Z.le_gt_cases 0 v) as [N|N].
  - rewrite Z.mod_small by lia. destruct (Z.ltb_spec v q); lia.
  - assert (M : v mod (2 * q) = v + 2 * q) by (symmetry; apply (Z.mod_unique_pos v (2 * q) (-1)); lia). rewrite M.
    destruct (Z.ltb_spec (v + 2 * q) q); lia.
Qed.
Lemma nth_mid {A} (pre bs post : list A) i : (i < length bs)%nat -> nth_error (pre ++ bs ++ post) (length pre + i) = nth_error bs i.
Proof. intros H. rewrite nth_error_app2 by lia. replace (length pre + i - length pre)%nat with i by lia. now rewrite nth_error_app1. Qed.
Lemma copy_le_ok w bs pre post : length bs = w -> copy_le w (pre ++ bs ++ post) (length pre) = Ok bs.
Proof.
  intros Hw. unfold copy_le.
  assert (G : forall n, (n <= w)%nat -> exists mem, foldM (fun mem j => b <- nth_res (pre ++ bs ++ post) (length pre + (w - j - 1)) ;; upd_res mem (w - j - 1) b) (seq 0 n) (repeat 0 w) = Ok mem /\
    length mem = w /\ forall i, (w - n <= i < w)%nat -> nth_error mem i = nth_error bs i).
  { induction n as [|n IH]; intros Hn.
    - exists (repeat 0 w). rewrite repeat_length. split; [reflexivity|]. split; [reflexivity|]. intros; lia.
    - destruct IH as (mem & E & L & V); [lia|]. rewrite seq_S, foldM_app, E. cbn [bind foldM Nat.add].
      assert (Hb : exists b, nth_error bs (w - n - 1) = Some b) by (destruct (nth_error bs (w - n - 1)) eqn:Q; [eauto|apply nth_error_None in Q; lia]). destruct Hb as [b Hb].
      rewrite (proj2 (nth_res_ok _ _ b)) by (rewrite nth_mid by lia; exact Hb). cbn [bind].
      rewrite upd_res_some by lia. cbn [bind]. eexists. split; [reflexivity|]. split; [now rewrite upd_length|].
      intros i Hi. destruct (Nat.eq_dec i (w - n - 1)) as [->|N].
      + rewrite nth_error_upd_same by lia. now rewrite Hb.
      + rewrite nth_error_upd_other by auto. apply V. lia. }
  destruct (G w (le_n _)) as (mem & E & L & V). rewrite E. f_equal. apply nth_error_ext. intros i.
  destruct (Nat.lt_ge_cases i w) as [H|H]; [apply V; lia|]. rewrite (proj2 (nth_error_None mem i)), (proj2 (nth_error_None bs i)) by lia. reflexivity.
Qed.
Lemma copy_be_ok w bs pre post : length bs = w -> copy_be w (pre ++ bs ++ post) (length pre) = Ok (rev bs).
Proof.
  intros Hw. unfold copy_be.
  assert (G : forall n, (n <= w)%nat -> exists mem, foldM (fun mem j => b <- nth_res (pre ++ bs ++ post) (length pre + j) ;; upd_res mem (w - j - 1) b) (seq 0 n) (repeat 0 w) = Ok mem /\
    length mem = w /\ forall i, (w - n <= i < w)%nat -> nth_error mem i = nth_error bs (w - 1 - i)).
  { induction n as [|n IH]; intros Hn.
    - exists (repeat 0 w). rewrite repeat_length. split; [reflexivity|]. split; [reflexivity|]. intros; lia.
    - destruct IH as (mem & E & L & V); [lia|]. rewrite seq_S, foldM_app, E. cbn [bind foldM Nat.add].
      assert (Hb : exists b, nth_error bs n = Some b) by (destruct (nth_error bs n) eqn:Q; [eauto|apply nth_error_None in Q; lia]). destruct Hb as [b Hb].
      rewrite (proj2 (nth_res_ok _ _ b)) by (rewrite nth_mid by lia; exact Hb). cbn [bind].
      rewrite upd_res_some by lia. cbn [bind]. eexists. split; [reflexivity|]. split; [now rewrite upd_length|].
      intros i Hi. destruct (Nat.eq_dec i (w - n - 1)) as [->|N].
      + rewrite nth_error_upd_same by lia. replace (w - 1 - (w - n - 1))%nat with n by lia. now rewrite Hb.
      + rewrite nth_error_upd_other by auto. apply V. lia. }
  destruct (G w (le_n _)) as (mem & E & L & V). rewrite E. f_equal. apply nth_error_ext. intros i.
  destruct (Nat.lt_ge_cases i w) as [H|H].
  - rewrite V by lia. assert (Hi : (i < length bs)%nat) by lia.
    rewrite (nth_error_nth' bs 0) by lia. rewrite (nth_error_nth' (rev bs) 0) by (rewrite rev_length; lia). rewrite rev_nth by lia. do 2 f_equal. lia.
  - rewrite (proj2 (nth_error_None mem i)) by lia. symmetry. apply nth_error_None. rewrite rev_length. lia.
Qed.

Theorem C83_little_endian w v : (0 < w)%nat -> fits w v -> reads (read_le w) (enc_le w v) v.
Proof.
  intros Hw Hv pre post. unfold read_le. rewrite copy_le_ok by apply enc_le_length. cbn [bind]. rewrite le_value_enc, signed_mod by auto.
  now rewrite enc_le_length.
Qed.
Theorem C83_big_endian w v : (0 < w)%nat -> fits w v -> reads (read_be w) (enc_be w v) v.
Proof.
  intros Hw Hv pre post. unfold read_be. rewrite copy_be_ok by apply enc_be_length. cbn [bind]. unfold enc_be at 1. rewrite rev_involutive, le_value_enc, signed_mod by auto.
  now rewrite enc_be_length.
Qed.
Theorem C83_double v : pattern v -> reads read_double (enc_le 8 v) v.
Proof.
  intros Hv pre post. unfold read_double. rewrite copy_le_ok by apply enc_le_length. cbn [bind]. rewrite le_value_enc. rewrite Z.mod_small by exact Hv.
  now rewrite enc_le_length.
Qed.
Theorem C83_short_buffer w buff head : (0 < w)%nat -> (length buff < head + w)%nat -> read_le w buff head = UB /\ read_be w buff head = UB.
Proof.
  intros Hw H. split.
  - unfold read_le. replace (copy_le w buff head) with (@UB (list Z)); [reflexivity|]. unfold copy_le. destruct w as [|w]; [lia|]. cbn [seq foldM].
    replace (head + (S w - 0 - 1))%nat with (head + w)%nat by lia. unfold nth_res. rewrite (proj2 (nth_error_None buff (head + w))) by lia. reflexivity.
  - unfold read_be. replace (copy_be w buff head) with (@UB (list Z)); [reflexivity|]. unfold copy_be. symmetry.
    assert (G : forall n k mem, length mem = w -> (k + n = w)%nat -> (length buff < head + w)%nat -> (0 < n)%nat ->
      foldM (fun mem j => b <- nth_res buff (head + j) ;; upd_res mem (w - j - 1) b) (seq k n) mem = UB).
    { induction n as [|n IH]; intros k mem L E Hb Hn; [lia|]. cbn [seq foldM]. unfold nth_res. destruct (nth_error buff (head + k)) as [b|] eqn:Q; [|reflexivity].
      cbn [bind]. rewrite upd_res_some by lia. cbn [bind]. assert (head + k < length buff)%nat by (apply nth_error_Some; congruence).
      apply IH; [now rewrite upd_length|lia|lia|lia]. }
    destruct w as [|w']; [lia|]. apply G; [apply repeat_length|lia|lia|lia].
Qed.

(* ------------------------------------------------------------------ composition *)
Lemma reads_ret {A} (a : A) : reads (ret a) [] a.
Proof. intros pre post. unfold ret. now rewrite Nat.add_0_r. Qed.
Lemma reads_bind {A B} (p : reader A) (f : A -> reader B) bs bs' a b : reads p bs a -> reads (f a) bs' b -> reads (andthen p f) (bs ++ bs') b.
Proof.
  intros H H' pre post. unfold andthen. rewrite <- app_assoc, H. cbn [bind fst snd]. specialize (H' (pre ++ bs) post). rewrite <- app_assoc in H'.
  rewrite app_length in H'. rewrite H'. rewrite app_length. do 2 f_equal. lia.
Qed.
Lemma reads_bind_ret {A B} (p : reader A) (g : A -> B) bs a : reads p bs a -> reads (x <~ p ;; ret (g x)) bs (g a).
Proof. intros H. rewrite <- (app_nil_r bs). eapply reads_bind; [exact H|apply reads_ret]. Qed.
Lemma reads_skip n bs : length bs = n -> reads (skip n) bs tt.
Proof. intros H pre post. unfold skip. now rewrite H. Qed.
Lemma reads_times {A} (p : reader A) (enc : A -> list Z) l : (forall a, In a l -> reads p (enc a) a) -> reads (times (length l) p) (flat_map enc l) l.
Proof.
  induction l as [|a l IH]; intros H; [apply reads_ret|]. cbn [length times flat_map]. eapply reads_bind; [apply H; now left|].
  apply (reads_bind_ret (times (length l) p) (fun l => a :: l)). apply IH. intros x Hx. apply H. now right.
Qed.
Lemma reads_times' {A B} (p : reader B) (enc : A -> list Z) (val : A -> B) l : (forall a, In a l -> reads p (enc a) (val a)) ->
  reads (times (length l) p) (flat_map enc l) (map val l).
Proof.
  induction l as [|a l IH]; intros H; [apply reads_ret|]. cbn [length times flat_map map]. eapply reads_bind; [apply H; now left|].
  apply (reads_bind_ret (times (length l) p) (fun l => val a :: l)). apply IH. intros x Hx. apply H. now right.
Qed.
Lemma reads_times_int {A B} (p : reader B) (enc : A -> list Z) (val : A -> B) l n : n = Z.of_nat (length l) -> (forall a, In a l -> reads p (enc a) (val a)) ->
  reads (times_int n p) (flat_map enc l) (map val l).
Proof.
  intros -> H pre post. unfold times_int. destruct (Z.ltb_spec (Z.of_nat (length l)) 0); [lia|]. rewrite Nat2Z.id. now apply reads_times'.
Qed.

(* ------------------------------------------------------------------ the shapefile format *)
(* a vertex with its optional measures; which of them are stored depends on the shape type *)
Definition vertex := (Z * Z * Z * Z)%type.
Definition vx (v : vertex) := fst (fst (fst v)).
Definition vy (v : vertex) := snd (fst (fst v)).
Definition vz (v : vertex) := snd (fst v).
Definition vm (v : vertex) := snd v.
Definition vertex_ok (v : vertex) : Prop := pattern (vx v) /\ pattern (vy v) /\ pattern (vz v) /\ pattern (vm v).
Definition has_z (s : shape) : bool := match s with SPointZ | SPolyLineZ | SPolygonZ | SMultiPointZ => true | _ => false end.
Definition has_m (s : shape) : bool := match s with SPointM | SPolyLineM | SPolygonM | SMultiPointM => true | _ => has_z s end.
(* the point of the library expected for a vertex *)
Definition seen (s : shape) (v : vertex) : point := Point (vx v) (vy v) (if has_z s then Some (vz v) else None) (if has_m s then Some (vm v) else None).
Definition dbl := enc_le 8.
Definition enc_xy (v : vertex) := dbl (vx v) ++ dbl (vy v).
Definition enc_point (s : shape) (v : vertex) : list Z :=
  dbl (vx v) ++ dbl (vy v) ++ (if has_z s then dbl (vz v) else []) ++ (if has_m s then dbl (vm v) else []).
(* z block and m block of a multi-vertex record: range, then one value per vertex *)
Definition enc_block (range : Z * Z) (vals : list Z) : list Z := dbl (fst range) ++ dbl (snd range) ++ flat_map dbl vals.
Definition enc_zm (s : shape) (zr mr : Z * Z) (vs : list vertex) : list Z :=
  (if has_z s then enc_block zr (map vz vs) else []) ++ (if has_m s then enc_block mr (map vm vs) else []).
Definition enc_multipoint (s : shape) (bb : list Z) (zr mr : Z * Z) (vs : list vertex) : list Z :=
  flat_map dbl bb ++ enc_le 4 (Z.of_nat (length vs)) ++ flat_map enc_xy vs ++ enc_zm s zr mr vs.
(* starting offset of each ring *)
Fixpoint starts (k : Z) (rings : list (list vertex)) : list Z :=
  match rings with [] => [] | r :: rest => k :: starts (k + Z.of_nat (length r)) rest end.
Definition enc_polygon (s : shape) (bb : list Z) (zr mr : Z * Z) (rings : list (list vertex)) : list Z :=
  flat_map dbl bb ++ enc_le 4 (Z.of_nat (length rings)) ++ enc_le 4 (Z.of_nat (length (concat rings))) ++ flat_map (enc_le 4) (starts 0 rings) ++
  flat_map enc_xy (concat rings) ++ enc_zm s zr mr (concat rings).

Definition is_point (s : shape) := match s with SPoint | SPointZ | SPointM => true | _ => false end.
Definition is_multipoint (s : shape) := match s with SMultiPoint | SMultiPointZ | SMultiPointM => true | _ => false end.
Definition is_poly (s : shape) := negb (is_point s) && negb (is_multipoint s).

Lemma read_point_ok s v : is_point s = true -> vertex_ok v -> reads (read_point s) (enc_point s v) (seen s v).
Proof.
  intros Hs (Hx & Hy & Hz & Hm). unfold read_point, enc_point. eapply reads_bind; [now apply C83_double|]. cbv beta. eapply reads_bind; [now apply C83_double|]. cbv beta.
  destruct s; try discriminate; cbn [has_z has_m app]; unfold seen; cbn [has_z has_m].
  - apply reads_ret.
  - eapply reads_bind; [now apply C83_double|]. cbv beta. apply (reads_bind_ret read_double (fun m => Point (vx v) (vy v) (Some (vz v)) (Some m))). now apply C83_double.
  - apply (reads_bind_ret read_double (fun m => Point (vx v) (vy v) None (Some m))). now apply C83_double.
Qed.
Lemma read_doubles l : (forall v, In v l -> pattern v) -> reads (times (length l) read_double) (flat_map dbl l) l.
Proof. intros H. apply reads_times. intros a Ha. now apply C83_double, H. Qed.
Lemma read_doubles_int n l : n = Z.of_nat (length l) -> (forall v, In v l -> pattern v) -> reads (times_int n read_double) (flat_map dbl l) l.
Proof. intros Hn H. pose proof (reads_times_int read_double dbl (fun x => x) l n Hn) as R. rewrite map_id in R. apply R. intros a Ha. now apply C83_double, H. Qed.
Definition range_ok (r : Z * Z) : Prop := pattern (fst r) /\ pattern (snd r).
Lemma read_block_ok n r vals pts : n = Z.of_nat (length vals) -> range_ok r -> (forall v, In v vals -> pattern v) ->
  reads (read_zm_block n pts) (enc_block r vals) (r, pts).
Proof.
  intros Hn [H1 H2] Hv. unfold read_zm_block, enc_block. eapply reads_bind; [now apply C83_double|]. cbv beta. eapply reads_bind; [now apply C83_double|]. cbv beta.
  destruct r as [r1 r2]. cbn [fst snd] in *. apply (reads_bind_ret (times_int n read_double) (fun _ => ((r1, r2), pts)) (flat_map dbl vals) vals). now apply read_doubles_int.
Qed.
Lemma in_map_ok {A B} (f : A -> B) (P : B -> Prop) l : (forall a, In a l -> P (f a)) -> forall b, In b (map f l) -> P b.
Proof. intros H b Hb. apply in_map_iff in Hb as (a & <- & Ha). auto. Qed.
Lemma read_multipoint_ok s bb zr mr vs : is_multipoint s = true -> length bb = 4%nat -> (forall v, In v bb -> pattern v) -> range_ok zr -> range_ok mr ->
  (forall v, In v vs -> vertex_ok v) -> fits 4 (Z.of_nat (length vs)) ->
  reads (read_multipoint s) (enc_multipoint s bb zr mr vs)
    (MultiPoint bb (Z.of_nat (length vs)) (map vx vs) (map vy vs) [] [] (if has_z s then Some zr else None) (if has_m s then Some mr else None)).
Proof.
  intros Hs Hbb Hbp Hz Hm Hv Hn. unfold read_multipoint, enc_multipoint. rewrite <- Hbb at 1. eapply reads_bind; [now apply read_doubles|]. cbv beta.
  eapply reads_bind; [apply C83_little_endian; auto; lia|]. cbv beta. eapply reads_bind.
  { apply (reads_times_int _ enc_xy (fun v => (vx v, vy v))); [reflexivity|]. intros v Hin. destruct (Hv v Hin) as (Hx & Hy & _). unfold enc_xy. eapply reads_bind; [now apply C83_double|]. cbv beta.
    apply (reads_bind_ret read_double (fun y => (vx v, y))). now apply C83_double. }
  cbv beta. rewrite !map_map. cbn [fst snd].
  assert (PZ : forall z, In z (map vz vs) -> pattern z) by (apply in_map_ok; intros v Hin; now apply Hv).
  assert (PM : forall z, In z (map vm vs) -> pattern z) by (apply in_map_ok; intros v Hin; now apply Hv).
  cbv zeta. unfold enc_zm. destruct s; try discriminate; cbn [has_z has_m app].
  - apply reads_ret.
  - eapply reads_bind; [apply (read_block_ok _ zr (map vz vs)); auto; now rewrite map_length|]. cbv beta. cbn [fst snd].
    apply (reads_bind_ret (read_zm_block _ []) (fun m => MultiPoint bb (Z.of_nat (length vs)) (map vx vs) (map vy vs) [] (snd m) (Some zr) (Some (fst m))) _ (mr, [])).
    apply read_block_ok; auto. now rewrite map_length.
  - apply (reads_bind_ret (read_zm_block _ []) (fun m => MultiPoint bb (Z.of_nat (length vs)) (map vx vs) (map vy vs) [] (snd m) None (Some (fst m))) _ (mr, [])).
    apply read_block_ok; auto. now rewrite map_length.
Qed.
Lemma starts_length k rings : length (starts k rings) = length rings.
Proof. revert k. induction rings as [|r rings IH]; intros k; cbn; auto. Qed.
Lemma starts_bound rings : forall k, 0 <= k -> forall b, In b (starts k rings) -> 0 <= b <= k + Z.of_nat (length (concat rings)).
Proof.
  induction rings as [|r rings IH]; intros k Hk b; [intros []|]. cbn [starts In concat]. rewrite app_length. intros [<-|H]; [lia|]. apply IH in H; lia.
Qed.
Lemma zip_map {A B C D} (f : B -> C -> D) (g : A -> B) (h : A -> C) l : zip_with f (map g l) (map h l) = map (fun a => f (g a) (h a)) l.
Proof. unfold zip_with. induction l as [|a l IH]; cbn; auto. now rewrite IH. Qed.
Definition poly_of (s : shape) (bb : list Z) (zr mr : Z * Z) (rings : list (list vertex)) : polygon :=
  Polygon bb (Z.of_nat (length rings)) (Z.of_nat (length (concat rings))) (starts 0 rings) (ends (starts 0 rings) (Z.of_nat (length (concat rings))))
    (map (seen s) (concat rings)) (if has_z s then Some zr else None) (if has_m s then Some mr else None).
Lemma read_polygon_ok s bb zr mr rings : is_poly s = true -> length bb = 4%nat -> (forall v, In v bb -> pattern v) -> range_ok zr -> range_ok mr ->
  rings <> [] -> (forall v, In v (concat rings) -> vertex_ok v) -> fits 4 (Z.of_nat (length rings)) -> fits 4 (Z.of_nat (length (concat rings))) ->
  reads (read_polygon s) (enc_polygon s bb zr mr rings) (poly_of s bb zr mr rings).
Proof.
  intros Hs Hbb Hbp [Hz1 Hz2] [Hm1 Hm2] Hne Hv Hr Hn. unfold read_polygon, enc_polygon, poly_of. rewrite <- Hbb at 1. eapply reads_bind; [now apply read_doubles|]. cbv beta.
  eapply reads_bind; [apply C83_little_endian; auto; lia|]. cbv beta. eapply reads_bind; [apply C83_little_endian; auto; lia|]. cbv beta. eapply reads_bind.
  { pose proof (reads_times_int int32_le (enc_le 4) (fun x => x) (starts 0 rings) (Z.of_nat (length rings))) as R. rewrite map_id in R. apply R; [now rewrite starts_length|].
    intros b Hb. apply C83_little_endian; [lia|]. apply starts_bound in Hb; [|lia]. unfold fits in *. lia. }
  cbv beta. set (pts := concat rings) in *. rewrite <- (app_nil_l (flat_map enc_xy pts ++ enc_zm s zr mr pts)). eapply reads_bind.
  { intros pre post. assert (Hnz : Z.of_nat (length rings) <> 0) by (destruct rings; [contradiction|cbn; lia]). apply Z.eqb_neq in Hnz. rewrite Hnz. cbn [length]. now rewrite Nat.add_0_r. }
  cbv beta. eapply reads_bind.
  { apply (reads_times_int _ enc_xy (fun v => Point (vx v) (vy v) None None)); [reflexivity|]. intros v Hin. destruct (Hv v Hin) as (Hx & Hy & _). unfold enc_xy. eapply reads_bind; [now apply C83_double|]. cbv beta.
    apply (reads_bind_ret read_double (fun y => Point (vx v) y None None)). now apply C83_double. }
  cbv beta.
  assert (RZ : reads (times_int (Z.of_nat (length pts)) read_double) (flat_map dbl (map vz pts)) (map vz pts)).
  { apply read_doubles_int; [now rewrite map_length|]. apply in_map_ok. intros v Hin. now apply Hv. }
  assert (RM : reads (times_int (Z.of_nat (length pts)) read_double) (flat_map dbl (map vm pts)) (map vm pts)).
  { apply read_doubles_int; [now rewrite map_length|]. apply in_map_ok. intros v Hin. now apply Hv. }
  unfold enc_zm, enc_block. destruct zr as [z1 z2], mr as [m1 m2]. cbn [fst snd] in *.
  destruct s; try discriminate; cbn [has_z has_m app]; try apply reads_ret.
  - rewrite <- !app_assoc. eapply reads_bind; [now apply C83_double|]. cbv beta. eapply reads_bind; [now apply C83_double|]. cbv beta. eapply reads_bind; [exact RZ|]. cbv beta.
    eapply reads_bind; [now apply C83_double|]. cbv beta. eapply reads_bind; [now apply C83_double|]. cbv beta. rewrite !zip_map.
    pose proof (reads_bind_ret _ (fun ms => Polygon bb (Z.of_nat (length rings)) (Z.of_nat (length pts)) (starts 0 rings) (ends (starts 0 rings) (Z.of_nat (length pts)))
      (zip_with set_m (map (fun a => set_z (Point (vx a) (vy a) None None) (vz a)) pts) ms) (Some (z1, z2)) (Some (m1, m2))) _ _ RM) as R. cbv beta in R. rewrite zip_map in R. exact R.
  - eapply reads_bind; [now apply C83_double|]. cbv beta. eapply reads_bind; [now apply C83_double|]. cbv beta.
    pose proof (reads_bind_ret _ (fun ms => Polygon bb (Z.of_nat (length rings)) (Z.of_nat (length pts)) (starts 0 rings) (ends (starts 0 rings) (Z.of_nat (length pts)))
      (zip_with set_m (map (fun v => Point (vx v) (vy v) None None) pts) ms) None (Some (m1, m2))) _ _ RM) as R. cbv beta in R. rewrite zip_map in R. exact R.
  - rewrite <- !app_assoc. eapply reads_bind; [now apply C83_double|]. cbv beta. eapply reads_bind; [now apply C83_double|]. cbv beta. eapply reads_bind; [exact RZ|]. cbv beta.
    eapply reads_bind; [now apply C83_double|]. cbv beta. eapply reads_bind; [now apply C83_double|]. cbv beta. rewrite !zip_map.
    pose proof (reads_bind_ret _ (fun ms => Polygon bb (Z.of_nat (length rings)) (Z.of_nat (length pts)) (starts 0 rings) (ends (starts 0 rings) (Z.of_nat (length pts)))
      (zip_with set_m (map (fun a => set_z (Point (vx a) (vy a) None None) (vz a)) pts) ms) (Some (z1, z2)) (Some (m1, m2))) _ _ RM) as R. cbv beta in R. rewrite zip_map in R. exact R.
  - eapply reads_bind; [now apply C83_double|]. cbv beta. eapply reads_bind; [now apply C83_double|]. cbv beta.
    pose proof (reads_bind_ret _ (fun ms => Polygon bb (Z.of_nat (length rings)) (Z.of_nat (length pts)) (starts 0 rings) (ends (starts 0 rings) (Z.of_nat (length pts)))
      (zip_with set_m (map (fun v => Point (vx v) (vy v) None None) pts) ms) None (Some (m1, m2))) _ _ RM) as R. cbv beta in R. rewrite zip_map in R. exact R.
Qed.

(* ------------------------------------------------------------------ whole files *)
(* a record: number, content length (not used by the reader), shape type (skipped), body *)
Definition enc_record (num len st : Z) (body : list Z) : list Z := enc_be 4 num ++ enc_be 4 len ++ enc_le 4 st ++ body.
Definition enc_header (code ver st : Z) (reserved : list Z) (bb : list Z) (bytes : Z) : list Z :=
  enc_be 4 code ++ reserved ++ enc_be 4 (bytes / 2) ++ enc_le 4 ver ++ enc_le 4 st ++ flat_map dbl bb.
(* the shape type codes of the format *)
Definition code_of (s : shape) : Z :=
  match s with
  | SPoint => 1 | SPolyLine => 3 | SPolygon => 5 | SMultiPoint => 8
  | SPointZ => 11 | SPolyLineZ => 13 | SPolygonZ => 15 | SMultiPointZ => 18
  | SPointM => 21 | SPolyLineM => 23 | SPolygonM => 25 | SMultiPointM => 28
  end.
Section Records.
Variables (A B : Type) (rec : reader B) (enc : A -> list Z) (val : A -> B) (st : Z).
Definition enc_records (l : list (Z * Z * A)) : list Z := flat_map (fun r => enc_record (fst (fst r)) (snd (fst r)) st (enc (snd r))) l.
Lemma enc_record_length num len body : length (enc_record num len st body) = (12 + length body)%nat.
Proof. unfold enc_record. rewrite !app_length, !enc_be_length, enc_le_length. lia. Qed.
Lemma read_into_ok l : (forall r, In r l -> fits 4 (fst (fst r)) /\ reads rec (enc (snd r)) (val (snd r))) ->
  forall fuel pre, (length l < fuel)%nat ->
  read_into fuel (Z.of_nat (length (pre ++ enc_records l))) rec (pre ++ enc_records l) (length pre) =
    Ok (map (fun r => (fst (fst r), val (snd r))) l, length (pre ++ enc_records l)).
Proof.
  induction l as [|[[num len] a] l IH]; intros H fuel pre Hf.
  - cbn [enc_records flat_map]. rewrite app_nil_r. destruct fuel; [lia|]. cbn [read_into]. rewrite Z.ltb_irrefl. reflexivity.
  - destruct fuel as [|fuel]; [cbn in Hf; lia|]. destruct (H _ (or_introl eq_refl)) as [Hnum Hrec]. cbn [fst snd] in *.
    set (tot := Z.of_nat (length (pre ++ enc_records ((num, len, a) :: l)))).
    assert (Etot : pre ++ enc_records ((num, len, a) :: l) = (pre ++ enc_be 4 num ++ enc_be 4 len ++ enc_le 4 st ++ enc a) ++ enc_records l).
    { cbn [enc_records flat_map fst snd]. unfold enc_record. rewrite <- !app_assoc. reflexivity. }
    cbn [read_into]. destruct (Z.ltb_spec (Z.of_nat (length pre)) tot) as [L|L].
    2:{ exfalso. unfold tot in L. rewrite Etot, !app_length, enc_be_length in L. lia. }
    unfold andthen at 1. rewrite Etot. rewrite <- (app_assoc pre). rewrite <- (app_assoc (enc_be 4 num)).
    unfold int32_be. rewrite C83_big_endian by (auto; lia). cbn [bind fst snd].
    unfold andthen at 1, skip at 1. cbn [bind fst snd]. unfold andthen at 1.
    replace (pre ++ enc_be 4 num ++ ((enc_be 4 len ++ enc_le 4 st ++ enc a) ++ enc_records l)) with ((pre ++ enc_be 4 num ++ enc_be 4 len ++ enc_le 4 st) ++ enc a ++ enc_records l) by (rewrite <- !app_assoc; reflexivity).
    replace (length pre + length (enc_be 4 num) + 8)%nat with (length (pre ++ enc_be 4 num ++ enc_be 4 len ++ enc_le 4 st)) by (rewrite !app_length, !enc_be_length, enc_le_length; lia).
    rewrite Hrec. cbn [bind fst snd]. unfold andthen at 1.
    set (pre' := pre ++ enc_be 4 num ++ enc_be 4 len ++ enc_le 4 st ++ enc a).
    assert (Ebuf : (pre ++ enc_be 4 num ++ enc_be 4 len ++ enc_le 4 st) ++ enc a ++ enc_records l = pre' ++ enc_records l) by (unfold pre'; rewrite <- !app_assoc; reflexivity).
    rewrite Ebuf. replace (length (pre ++ enc_be 4 num ++ enc_be 4 len ++ enc_le 4 st) + length (enc a))%nat with (length pre') by (unfold pre'; rewrite !app_length; lia).
    unfold tot. rewrite Etot. fold pre'. rewrite IH; [reflexivity| |cbn in Hf; lia]. intros r Hr. apply H. now right.
Qed.
End Records.
Lemma flat_dbl_length l : length (flat_map dbl l) = (8 * length l)%nat.
Proof. induction l as [|x l IH]; cbn [flat_map length]; [reflexivity|]. rewrite app_length, IH. unfold dbl. rewrite enc_le_length. lia. Qed.
Definition header_ok (code ver : Z) (reserved bb : list Z) : Prop :=
  fits 4 code /\ fits 4 ver /\ length reserved = 20%nat /\ length bb = 8%nat /\ forall v, In v bb -> pattern v.
Lemma header_reads code ver st reserved bb bytes : header_ok code ver reserved bb -> fits 4 st -> fits 4 (bytes / 2) -> bytes mod 2 = 0 ->
  reads header (enc_header code ver st reserved bb bytes) (code, bytes, ver, st, bb) /\ length (enc_header code ver st reserved bb bytes) = 100%nat.
Proof.
  intros (Hc & Hv & Hr & Hb & Hp) Hs Hl He. split.
  - unfold header, enc_header. eapply reads_bind; [apply C83_big_endian; auto; lia|]. cbv beta. eapply reads_bind; [now apply reads_skip|]. cbv beta.
    eapply reads_bind; [apply C83_big_endian; [lia|exact Hl]|]. cbv beta. eapply reads_bind; [apply C83_little_endian; auto; lia|]. cbv beta.
    eapply reads_bind; [apply C83_little_endian; auto; lia|]. cbv beta.
    assert (E : 2 * (bytes / 2) = bytes) by (pose proof (Z.div_mod bytes 2); lia). rewrite E.
    apply (reads_bind_ret (times 8 read_double) (fun bb => (code, bytes, ver, st, bb))). rewrite <- Hb. now apply read_doubles.
  - unfold enc_header. rewrite !app_length, !enc_be_length, !enc_le_length, flat_dbl_length. lia.
Qed.
Lemma shape_code s : shape_of (code_of s) = Some s /\ fits 4 (code_of s).
Proof. destruct s; split; try reflexivity; unfold fits; cbn; lia. Qed.

Section WholeFile.
Variables (A B : Type) (rec : shape -> reader B) (enc : A -> list Z) (val : A -> B) (con : list (Z * B) -> content) (s : shape).
Definition enc_file (code ver : Z) (reserved bb : list Z) (l : list (Z * Z * A)) : list Z :=
  let body := enc_records A enc (code_of s) l in
  enc_header code ver (code_of s) reserved bb (100 + Z.of_nat (length body)) ++ body.
Definition expected (code ver : Z) (bb : list Z) (l : list (Z * Z * A)) : shp :=
  Shp code (100 + Z.of_nat (length (enc_records A enc (code_of s) l))) ver (code_of s) bb (length l) (con (map (fun r => (fst (fst r), val (snd r))) l)).
Lemma whole_file code ver reserved bb l trailing : header_ok code ver reserved bb ->
  (forall r, In r l -> fits 4 (fst (fst r)) /\ reads (rec s) (enc (snd r)) (val (snd r))) ->
  let bytes := 100 + Z.of_nat (length (enc_records A enc (code_of s) l)) in
  fits 4 (bytes / 2) -> bytes mod 2 = 0 ->
  header (firstn 100 (enc_file code ver reserved bb l ++ trailing)) 0%nat = Ok ((code, bytes, ver, code_of s, bb), 100%nat) /\
  firstn (Z.to_nat (bytes - 100)) (skipn 100 (enc_file code ver reserved bb l ++ trailing)) = enc_records A enc (code_of s) l /\
  read_into (S (Z.to_nat (bytes - 100))) (bytes - 100) (rec s) (enc_records A enc (code_of s) l) 0%nat =
    Ok (map (fun r => (fst (fst r), val (snd r))) l, length (enc_records A enc (code_of s) l)).
Proof.
  intros Hh Hl bytes Hb He. destruct (shape_code s) as [_ Hs]. destruct (header_reads code ver (code_of s) reserved bb bytes Hh Hs Hb He) as [HR HL].
  set (body := enc_records A enc (code_of s) l) in *.
  assert (EF : enc_file code ver reserved bb l ++ trailing = enc_header code ver (code_of s) reserved bb bytes ++ (body ++ trailing)) by (unfold enc_file; fold body; fold bytes; now rewrite <- app_assoc).
  split; [|split].
  - rewrite EF, <- HL, firstn_app, firstn_all, Nat.sub_diag. cbn [firstn]. pose proof (HR [] []) as H. rewrite HL in H |- *. exact H.
  - rewrite EF. rewrite <- HL at 1. rewrite skipn_app, skipn_all, Nat.sub_diag. cbn [skipn app].
    replace (Z.to_nat (bytes - 100)) with (length body) by (unfold bytes; lia). rewrite firstn_app, firstn_all, Nat.sub_diag. cbn [firstn]. apply app_nil_r.
  - replace (bytes - 100) with (Z.of_nat (length body)) by (unfold bytes; lia). rewrite Nat2Z.id.
    pose proof (read_into_ok A B (rec s) enc val (code_of s) l Hl (S (length body)) []) as H. cbn [app length] in H. apply H.
    clear. unfold body. induction l as [|r l IH]; cbn [length]; [lia|]. cbn [enc_records flat_map]. rewrite app_length, enc_record_length. unfold enc_records in IH. lia.
Qed.
End WholeFile.
(* Point, PointZ and PointM files: every record is read back, with z and m where the type has them *)
Theorem C118_points s code ver reserved bb (l : list (Z * Z * vertex)) trailing : is_point s = true -> header_ok code ver reserved bb ->
  (forall r, In r l -> fits 4 (fst (fst r)) /\ vertex_ok (snd r)) ->
  let bytes := 100 + Z.of_nat (length (enc_records vertex (enc_point s) (code_of s) l)) in fits 4 (bytes / 2) -> bytes mod 2 = 0 ->
  read_shp (enc_file vertex (enc_point s) s code ver reserved bb l ++ trailing) =
    Ok (Shp code bytes ver (code_of s) bb (length l) (Points (map (fun r => (fst (fst r), seen s (snd r))) l))).
Proof.
  intros Hs Hh Hl bytes Hb He.
  assert (Hl' : forall r, In r l -> fits 4 (fst (fst r)) /\ reads (read_point s) (enc_point s (snd r)) (seen s (snd r))) by (intros r Hr; split; [now apply Hl|apply read_point_ok; [auto|now apply Hl]]).
  destruct (whole_file vertex point read_point (enc_point s) (seen s) s code ver reserved bb l trailing Hh Hl' Hb He) as (E1 & E2 & E3).
  unfold read_shp. rewrite E1. cbn [bind fst]. destruct (shape_code s) as [-> _]. fold bytes in E2, E3 |- *.
  destruct (Z.ltb_spec (bytes - 100) 0); [unfold bytes in *; lia|]. rewrite E2.
  destruct s; try discriminate; rewrite E3; cbn [bind fst]; unfold counted; now rewrite map_length.
Qed.
(* PolyLine and Polygon files *)
Record poly_record := PolyRecord { pr_bbox : list Z; pr_z : Z * Z; pr_m : Z * Z; pr_rings : list (list vertex) }.
Definition poly_ok (p : poly_record) : Prop :=
  length (pr_bbox p) = 4%nat /\ (forall v, In v (pr_bbox p) -> pattern v) /\ range_ok (pr_z p) /\ range_ok (pr_m p) /\ pr_rings p <> [] /\
  (forall v, In v (concat (pr_rings p)) -> vertex_ok v) /\ fits 4 (Z.of_nat (length (pr_rings p))) /\ fits 4 (Z.of_nat (length (concat (pr_rings p)))).
Definition enc_poly (s : shape) (p : poly_record) := enc_polygon s (pr_bbox p) (pr_z p) (pr_m p) (pr_rings p).
Definition poly_val (s : shape) (p : poly_record) := poly_of s (pr_bbox p) (pr_z p) (pr_m p) (pr_rings p).
Theorem C118_polygons s code ver reserved bb (l : list (Z * Z * poly_record)) trailing : is_poly s = true -> header_ok code ver reserved bb ->
  (forall r, In r l -> fits 4 (fst (fst r)) /\ poly_ok (snd r)) ->
  let bytes := 100 + Z.of_nat (length (enc_records poly_record (enc_poly s) (code_of s) l)) in fits 4 (bytes / 2) -> bytes mod 2 = 0 ->
  exists recs, read_shp (enc_file poly_record (enc_poly s) s code ver reserved bb l ++ trailing) = Ok (Shp code bytes ver (code_of s) bb (length l) (Polys recs)) /\
    Forall2 (fun r q => fst q = fst (fst r) /\ pg_bbox (snd q) = pr_bbox (snd r) /\ pg_rings (snd q) = Z.of_nat (length (pr_rings (snd r))) /\
      ring_begin (snd q) = starts 0 (pr_rings (snd r)) /\ pg_points (snd q) = map (seen s) (concat (pr_rings (snd r))) /\ pg_n (snd q) = Z.of_nat (length (pg_points (snd q))) /\
      pg_zrange (snd q) = (if has_z s then Some (pr_z (snd r)) else None) /\ pg_mrange (snd q) = (if has_m s then Some (pr_m (snd r)) else None)) l recs.
Proof.
  intros Hs Hh Hl bytes Hb He.
  assert (Hl' : forall r, In r l -> fits 4 (fst (fst r)) /\ reads (read_polygon s) (enc_poly s (snd r)) (poly_val s (snd r))).
  { intros r Hr. destruct (Hl r Hr) as (H1 & P1 & P2 & P3 & P4 & P5 & P6 & P7 & P8). split; [exact H1|]. now apply read_polygon_ok. }
  destruct (whole_file poly_record polygon read_polygon (enc_poly s) (poly_val s) s code ver reserved bb l trailing Hh Hl' Hb He) as (E1 & E2 & E3).
  exists (map (fun r => (fst (fst r), poly_val s (snd r))) l). split.
  - unfold read_shp. rewrite E1. cbn [bind fst]. destruct (shape_code s) as [-> _]. fold bytes in E2, E3 |- *.
    destruct (Z.ltb_spec (bytes - 100) 0); [unfold bytes in *; lia|]. rewrite E2.
    destruct s; try discriminate; rewrite E3; cbn [bind fst]; unfold counted; now rewrite map_length.
  - clear. induction l as [|r l IH]; cbn [map]; constructor; [|exact IH]. cbn [fst snd]. unfold poly_val, poly_of. cbn [pg_bbox pg_rings ring_begin pg_points pg_n pg_zrange pg_mrange].
    rewrite map_length. auto 10.
Qed.
(* MultiPoint files: everything but the z and m values *)
Record mp_record := MpRecord { mr_bbox : list Z; mr_z : Z * Z; mr_m : Z * Z; mr_points : list vertex }.
Definition mp_ok (p : mp_record) : Prop :=
  length (mr_bbox p) = 4%nat /\ (forall v, In v (mr_bbox p) -> pattern v) /\ range_ok (mr_z p) /\ range_ok (mr_m p) /\
  (forall v, In v (mr_points p) -> vertex_ok v) /\ fits 4 (Z.of_nat (length (mr_points p))).
Definition enc_mp (s : shape) (p : mp_record) := enc_multipoint s (mr_bbox p) (mr_z p) (mr_m p) (mr_points p).
Lemma multipoint_file s code ver reserved bb (l : list (Z * Z * mp_record)) trailing : is_multipoint s = true -> header_ok code ver reserved bb ->
  (forall r, In r l -> fits 4 (fst (fst r)) /\ mp_ok (snd r)) ->
  let bytes := 100 + Z.of_nat (length (enc_records mp_record (enc_mp s) (code_of s) l)) in fits 4 (bytes / 2) -> bytes mod 2 = 0 ->
  exists recs, read_shp (enc_file mp_record (enc_mp s) s code ver reserved bb l ++ trailing) = Ok (Shp code bytes ver (code_of s) bb (length l) (MultiPoints recs)) /\
    Forall2 (fun r q => fst q = fst (fst r) /\ mp_bbox (snd q) = mr_bbox (snd r) /\ mp_n (snd q) = Z.of_nat (length (mr_points (snd r))) /\
      mp_x (snd q) = map vx (mr_points (snd r)) /\ mp_y (snd q) = map vy (mr_points (snd r)) /\
      mp_zrange (snd q) = (if has_z s then Some (mr_z (snd r)) else None) /\ mp_mrange (snd q) = (if has_m s then Some (mr_m (snd r)) else None) /\
      mp_z (snd q) = [] /\ mp_m (snd q) = []) l recs.
Proof.
  intros Hs Hh Hl bytes Hb He.
  set (val := fun p => MultiPoint (mr_bbox p) (Z.of_nat (length (mr_points p))) (map vx (mr_points p)) (map vy (mr_points p)) [] [] (if has_z s then Some (mr_z p) else None) (if has_m s then Some (mr_m p) else None)).
  assert (Hl' : forall r, In r l -> fits 4 (fst (fst r)) /\ reads (read_multipoint s) (enc_mp s (snd r)) (val (snd r))).
  { intros r Hr. destruct (Hl r Hr) as (H1 & P1 & P2 & P3 & P4 & P5 & P6). split; [exact H1|]. now apply read_multipoint_ok. }
  destruct (whole_file mp_record multipoint read_multipoint (enc_mp s) val s code ver reserved bb l trailing Hh Hl' Hb He) as (E1 & E2 & E3).
  exists (map (fun r => (fst (fst r), val (snd r))) l). split.
  - unfold read_shp. rewrite E1. cbn [bind fst]. destruct (shape_code s) as [-> _]. fold bytes in E2, E3 |- *.
    destruct (Z.ltb_spec (bytes - 100) 0); [unfold bytes in *; lia|]. rewrite E2.
    destruct s; try discriminate; rewrite E3; cbn [bind fst]; unfold counted; now rewrite map_length.
  - clear. induction l as [|r l IH]; cbn [map]; constructor; [|exact IH]. cbn [fst snd]. unfold val. cbn. auto 10.
Qed.
(* MultiPoint without z and m: all there is to read is read *)
Theorem C85_multipoint_partial code ver reserved bb (l : list (Z * Z * mp_record)) trailing : header_ok code ver reserved bb ->
  (forall r, In r l -> fits 4 (fst (fst r)) /\ mp_ok (snd r)) ->
  let s := SMultiPoint in
  let bytes := 100 + Z.of_nat (length (enc_records mp_record (enc_mp s) (code_of s) l)) in fits 4 (bytes / 2) -> bytes mod 2 = 0 ->
  exists recs, read_shp (enc_file mp_record (enc_mp s) s code ver reserved bb l ++ trailing) = Ok (Shp code bytes ver (code_of s) bb (length l) (MultiPoints recs)) /\
    Forall2 (fun r q => fst q = fst (fst r) /\ mp_x (snd q) = map vx (mr_points (snd r)) /\ mp_y (snd q) = map vy (mr_points (snd r))) l recs.
Proof.
  intros Hh Hl s bytes Hb He. destruct (multipoint_file SMultiPoint code ver reserved bb l trailing eq_refl Hh Hl Hb He) as (recs & E & F). exists recs. split; [exact E|].
  clear -F. induction F as [|r q l recs H F IH]; constructor; [tauto|exact IH].
Qed.
(* MultiPointZ and MultiPointM: the z and m vectors are empty for every record of every file *)
Theorem C85_zm_refuted s code ver reserved bb (l : list (Z * Z * mp_record)) trailing : s = SMultiPointZ \/ s = SMultiPointM -> header_ok code ver reserved bb ->
  (forall r, In r l -> fits 4 (fst (fst r)) /\ mp_ok (snd r)) ->
  let bytes := 100 + Z.of_nat (length (enc_records mp_record (enc_mp s) (code_of s) l)) in fits 4 (bytes / 2) -> bytes mod 2 = 0 ->
  exists recs, read_shp (enc_file mp_record (enc_mp s) s code ver reserved bb l ++ trailing) = Ok (Shp code bytes ver (code_of s) bb (length l) (MultiPoints recs)) /\
    Forall2 (fun r q => mp_x (snd q) = map vx (mr_points (snd r)) /\ mp_m (snd q) = [] /\ mp_z (snd q) = []) l recs.
Proof.
  intros Hs Hh Hl bytes Hb He. destruct (multipoint_file s code ver reserved bb l trailing ltac:(destruct Hs; subst; reflexivity) Hh Hl Hb He) as (recs & E & F). exists recs. split; [exact E|].
  clear -F. induction F as [|r q l recs H F IH]; constructor; [tauto|exact IH].
Qed.

(* ------------------------------------------------------------------ C84 *)
Fixpoint drop_last {A} (ls : list (list A)) : list (list A) := (* every ring but the final one loses its last point *)
  match ls with [] => [] | [l] => [l] | l :: r => removelast l :: drop_last r end.
Lemma starts_nth rings : forall k i, (i < length rings)%nat -> nth_error (starts k rings) i = Some (k + Z.of_nat (length (concat (firstn i rings)))).
Proof.
  induction rings as [|r rings IH]; intros k i Hi; cbn in Hi; [lia|]. destruct i as [|i]; cbn [starts nth_error firstn concat length]; [f_equal; lia|].
  rewrite IH by lia. rewrite app_length. f_equal. lia.
Qed.
Lemma ends_nth k rings n i : (i < length rings)%nat -> nth_error (ends (starts k rings) n) i =
  Some (if (S i =? length rings)%nat then n else k + Z.of_nat (length (concat (firstn (S i) rings))) - 1).
Proof.
  intros Hi. unfold ends. rewrite starts_length. destruct (Nat.eqb_spec (length rings) 1) as [E|N].
  - destruct i; [|lia]. rewrite E. reflexivity.
  - destruct rings as [|r rings]; [cbn in Hi; lia|]. cbn [starts tl]. assert (Lm : length (map (fun b => b - 1) (starts (k + Z.of_nat (length r)) rings)) = length rings) by (rewrite map_length; apply starts_length).
    cbn [length] in *. destruct (Nat.eqb_spec (S i) (S (length rings))) as [E2|N2].
    + rewrite nth_error_app2 by lia. replace (i - _)%nat with 0%nat by lia. reflexivity.
    + rewrite nth_error_app1 by lia. rewrite nth_error_map, starts_nth by lia. cbn [option_map firstn concat]. rewrite app_length. f_equal. lia.
Qed.
Lemma drop_last_nth {A} (ls : list (list A)) : forall i l, nth_error ls i = Some l ->
  nth_error (drop_last ls) i = Some (if (S i =? length ls)%nat then l else removelast l).
Proof.
  induction ls as [|a ls IH]; intros i l H; [destruct i; discriminate|]. destruct ls as [|b ls].
  - destruct i as [|[|i]]; try discriminate. cbn in *. congruence.
  - change (drop_last (a :: b :: ls)) with (removelast a :: drop_last (b :: ls)). destruct i as [|i]; cbn [nth_error] in *.
    + injection H as <-. reflexivity.
    + rewrite (IH i l H). reflexivity.
Qed.
Lemma drop_last_length {A} (ls : list (list A)) : length (drop_last ls) = length ls.
Proof. induction ls as [|a ls IH]; [reflexivity|]. destruct ls; [reflexivity|]. cbn [drop_last length] in *. now rewrite IH. Qed.
Lemma slice_concat {A} (ls : list (list A)) i l : nth_error ls i = Some l -> skipn (length (concat (firstn i ls))) (concat ls) = l ++ concat (skipn (S i) ls).
Proof.
  intros H. assert (E : ls = firstn i ls ++ l :: skipn (S i) ls).
  { clear -H. revert ls H. induction i as [|i IH]; intros [|a ls] H; try discriminate; cbn in *; [congruence|]. f_equal. now apply IH. }
  rewrite E at 2. rewrite concat_app. rewrite skipn_app, skipn_all, Nat.sub_diag. reflexivity.
Qed.
Lemma mapM_nth {A B} (f : A -> Res B) l l' : length l = length l' -> (forall i a b, nth_error l i = Some a -> nth_error l' i = Some b -> f a = Ok b) -> mapM f l = Ok l'.
Proof.
  revert l'. induction l as [|a l IH]; intros [|b l'] HL H; try discriminate; [reflexivity|]. cbn [mapM]. rewrite (H 0%nat a b) by reflexivity. cbn [bind].
  rewrite (IH l'); [reflexivity|now injection HL|]. intros i x y Hx Hy. now apply (H (S i)).
Qed.
(* the rings obtained by iterating a polygon just read *)
Lemma rings_read s bb zr mr rings : rings <> [] -> (forall r, In r rings -> r <> []) ->
  all_rings (poly_of s bb zr mr rings) = Ok (drop_last (map (map (seen s)) rings)).
Proof.
  intros Hne Hr. unfold all_rings, poly_of. cbn [pg_rings]. rewrite Nat2Z.id. apply mapM_nth; [now rewrite seq_length, drop_last_length, map_length|].
  intros i j b Hi Hb. rewrite nth_error_seq in Hi. destruct (Nat.ltb_spec i (length rings)) as [L|]; [|discriminate]. injection Hi as <-. cbn [Nat.add].
  destruct (nth_error rings i) as [r|] eqn:Er; [|apply nth_error_None in Er; lia].
  rewrite (drop_last_nth _ i (map (seen s) r)) in Hb by (now apply map_nth_error). injection Hb as <-. rewrite map_length.
  unfold ring. cbn [ring_begin ring_end pg_points]. rewrite (proj2 (nth_res_ok _ _ _) (starts_nth rings 0 i L)), (proj2 (nth_res_ok _ _ _) (ends_nth 0 rings (Z.of_nat (length (concat rings))) i L)). cbn [bind].
  assert (Hlen : length (concat (firstn (S i) rings)) = (length (concat (firstn i rings)) + length r)%nat).
  { rewrite (firstn_S_nth rings i r Er) || (assert (F : firstn (S i) rings = firstn i rings ++ [r]) by (clear -Er; revert rings Er; induction i as [|i IH]; intros [|a l] H; try discriminate; cbn in *; [congruence|]; now rewrite (IH l H)); rewrite F).
    rewrite concat_app, app_length. cbn [concat]. now rewrite app_nil_r. }
  assert (Hpos : (0 < length r)%nat) by (assert (r <> []) by (apply Hr; eapply nth_error_In; eauto); destruct r; [contradiction|cbn; lia]).
  assert (Htot : (length (concat (firstn i rings)) + length r + length (concat (skipn (S i) rings)) = length (concat rings))%nat).
  { pose proof (f_equal (@length _) (slice_concat rings i r Er)) as Q. rewrite skipn_length, app_length in Q. assert (length (concat (firstn i rings)) <= length (concat rings))%nat; [|lia].
    rewrite <- (firstn_skipn i rings) at 2. rewrite concat_app, app_length. lia. }
  assert (S1 := slice_concat rings i r Er). rewrite !Z.add_0_l. rewrite map_length, skipn_map.
  change (match length rings with 0%nat => false | S m' => (i =? m')%nat end) with (S i =? length rings)%nat.
  destruct (Nat.eqb_spec (S i) (length rings)) as [E|N].
  - replace (concat (skipn (S i) rings)) with (@nil vertex) in S1 by (rewrite E, skipn_all; reflexivity). rewrite app_nil_r in S1. rewrite Nat2Z.id, S1.
    rewrite E, skipn_all in Htot. cbn [concat length] in Htot.
    destruct (Z.leb_spec 0 (Z.of_nat (length (concat (firstn i rings))))); [|lia]. destruct (Z.leb_spec (Z.of_nat (length (concat (firstn i rings)))) (Z.of_nat (length (concat rings)))); [|lia].
    rewrite Z.leb_refl. cbn [andb]. f_equal. apply firstn_all2. rewrite map_length. lia.
  - rewrite Hlen. destruct (Z.leb_spec 0 (Z.of_nat (length (concat (firstn i rings))))); [|lia].
    destruct (Z.leb_spec (Z.of_nat (length (concat (firstn i rings)))) (Z.of_nat (length (concat (firstn i rings)) + length r) - 1)); [|lia].
    destruct (Z.leb_spec (Z.of_nat (length (concat (firstn i rings)) + length r) - 1) (Z.of_nat (length (concat rings)))); [|lia]. cbn [andb]. f_equal.
    rewrite Nat2Z.id, S1. rewrite removelast_firstn_len, map_length. rewrite map_app, firstn_app, map_length.
    replace (Z.to_nat _) with (pred (length r)) by lia. replace (pred (length r) - length r)%nat with 0%nat by lia. cbn [firstn]. now rewrite app_nil_r.
Qed.
(* one ring: iterating gives all its points, for every Polygon / PolyLine record read at any place of a file *)
Theorem C84_single_ring_partial s bb zr mr r : is_poly s = true -> poly_ok (PolyRecord bb zr mr [r]) -> r <> [] ->
  exists p, reads (read_polygon s) (enc_polygon s bb zr mr [r]) p /\ all_rings p = Ok [map (seen s) r].
Proof.
  intros Hs (P1 & P2 & P3 & P4 & P5 & P6 & P7 & P8) Hr. exists (poly_of s bb zr mr [r]). split; [now apply read_polygon_ok|].
  rewrite rings_read; [reflexivity|discriminate|]. intros x [<-|[]]. exact Hr.
Qed.
(* several rings: the last point of each ring but the last one is not visited *)
Theorem C84_rings_refuted s bb zr mr rings : is_poly s = true -> poly_ok (PolyRecord bb zr mr rings) -> (forall r, In r rings -> r <> []) ->
  exists p, reads (read_polygon s) (enc_polygon s bb zr mr rings) p /\
    exists out, all_rings p = Ok out /\ length out = length rings /\
    forall i r, nth_error rings i = Some r -> nth_error out i = Some (if (S i =? length rings)%nat then map (seen s) r else removelast (map (seen s) r)).
Proof.
  intros Hs (P1 & P2 & P3 & P4 & P5 & P6 & P7 & P8) Hr. exists (poly_of s bb zr mr rings). split; [now apply read_polygon_ok|].
  eexists. split; [now apply rings_read|]. split; [now rewrite drop_last_length, map_length|]. intros i r Hi.
  rewrite (drop_last_nth _ i (map (seen s) r)) by (now apply map_nth_error). now rewrite map_length.
Qed.

(* ------------------------------------------------------------------ C86 *)
(* when every text of the column can be converted, value i is the conversion of text i *)
Theorem C86_rows_partial T (zero : T) conv d name vs : column (data d) name = Some vs -> (forall v, In v vs -> conv v <> None) ->
  exists out, get_as T zero conv d name = Ok out /\ length out = length vs /\
    forall i v, nth_error vs i = Some v -> exists x, nth_error out i = Some x /\ conv v = Some x.
Proof.
  intros Hc Hv. unfold get_as. rewrite Hc. exists (convert T conv zero vs). split; [reflexivity|]. clear Hc. revert zero. induction vs as [|v vs IH]; intros z.
  - split; [reflexivity|]. intros [|i] v H; discriminate.
  - cbn [convert]. destruct (conv v) as [x|] eqn:E; [|exfalso; apply (Hv v); [now left|exact E]]. destruct (IH (fun w Hw => Hv w (or_intror Hw)) x) as [L V].
    split; [cbn; now rewrite L|]. intros [|i] w H; cbn in *; [|now apply V]. injection H as <-. eauto.
Qed.
(* in general value i is that of the last convertible text up to row i, and zero when there is none *)
Theorem C86_general T (zero : T) conv d name vs : column (data d) name = Some vs -> exists out, get_as T zero conv d name = Ok out /\ length out = length vs /\
  forall i, (i < length vs)%nat ->
    (exists k v x, (k <= i)%nat /\ nth_error vs k = Some v /\ conv v = Some x /\ nth_error out i = Some x /\ forall j w, (k < j <= i)%nat -> nth_error vs j = Some w -> conv w = None)
    \/ (nth_error out i = Some zero /\ forall j w, (j <= i)%nat -> nth_error vs j = Some w -> conv w = None).
Proof.
  intros Hc. unfold get_as. rewrite Hc. exists (convert T conv zero vs). split; [reflexivity|]. clear Hc. revert zero. induction vs as [|v vs IH]; intros z.
  - split; [reflexivity|]. cbn. lia.
  - cbn [convert length]. set (z' := match conv v with Some x => x | None => z end). destruct (IH z') as [L V]. split; [now rewrite L|]. intros [|i] Hi.
    + destruct (conv v) as [x|] eqn:E.
      * left. exists 0%nat, v, x. cbn. repeat split; auto. intros; lia.
      * right. cbn. split; [reflexivity|]. intros [|j] w Hj Hw; [|lia]. cbn in Hw. congruence.
    + destruct (V i ltac:(lia)) as [(k & w & x & Hk & Hw & Hx & Ho & Hn)|[Ho Hn]].
      * left. exists (S k), w, x. cbn. repeat split; auto; [lia|]. intros [|j] u Hj Hu; [lia|]. apply (Hn j u); [lia|exact Hu].
      * destruct (conv v) as [x|] eqn:E.
        -- left. exists 0%nat, v, x. cbn. repeat split; auto; [lia|]. intros [|j] u Hj Hu; [lia|]. apply (Hn j u); [lia|exact Hu].
        -- right. cbn. split; [exact Ho|]. intros [|j] u Hj Hu; cbn in Hu; [congruence|]. apply (Hn j u); [lia|exact Hu].
Qed.
(* hence the value depends on other rows: a text that cannot be converted (an empty or blank-padded number) repeats the
   value of the row before *)
Theorem C86_previous_row_refuted T (zero : T) conv name a b x : conv a = Some x -> conv b = None ->
  exists d, column (data d) name = Some [a; b] /\ get_as T zero conv d name = Ok [x; x] /\
  exists d', column (data d') name = Some [b; b] /\ get_as T zero conv d' name = Ok [zero; zero].
Proof.
  intros Ha Hb. assert (E : bytes_eqb name name = true) by (induction name; cbn; [auto|now rewrite Z.eqb_refl]).
  exists (Dbf [] [(name, [a; b])]). cbn. rewrite E. split; [reflexivity|]. unfold get_as. cbn. rewrite E. cbn. rewrite Ha, Hb. split; [reflexivity|].
  exists (Dbf [] [(name, [b; b])]). cbn. rewrite E. split; [reflexivity|]. cbn. rewrite Hb. reflexivity.
Qed.

(* a name is refused exactly when the table has no field of that name *)
Lemma bytes_eqb_eq a b : bytes_eqb a b = true <-> a = b.
Proof.
  revert b. induction a as [|x a IH]; intros [|y b]; cbn; try (split; congruence).
  rewrite andb_true_iff, Z.eqb_eq, IH. split; [intros [-> ->]; reflexivity|intros [= -> ->]; auto].
Qed.
Theorem C86_missing T (zero : T) conv d name :
  (get_as T zero conv d name = Throw <-> forall vs, ~ In (name, vs) (data d)) /\
  (get_as_string d name = Throw <-> forall vs, ~ In (name, vs) (data d)) /\
  (forall vs, In (name, vs) (data d) -> NoDup (map fst (data d)) -> column (data d) name = Some vs /\ get_as_string d name = Ok vs).
Proof.
  assert (G : column (data d) name = None <-> forall vs, ~ In (name, vs) (data d)).
  { induction (data d) as [|[n v] l IH]; cbn; [split; auto|]. destruct (bytes_eqb n name) eqn:E.
    - apply bytes_eqb_eq in E. subst. split; [discriminate|]. intros H. exfalso. apply (H v). auto.
    - rewrite IH. split; intros H vs; [intros [[= -> ->]|Hin]|].
      + assert (bytes_eqb name name = true) by (now apply bytes_eqb_eq). congruence.
      + now apply (H vs).
      + intros Hin. apply (H vs). auto. }
  split; [|split].
  - rewrite <- G. unfold get_as. destruct (column (data d) name); split; congruence.
  - rewrite <- G. unfold get_as_string. destruct (column (data d) name); split; congruence.
  - intros vs Hin Hnd. assert (E : column (data d) name = Some vs); [|unfold get_as_string; rewrite E; auto].
    clear G. induction (data d) as [|[n v] l IH]; [destruct Hin|]. cbn in *. inversion_clear Hnd as [|? ? N1 N2]. destruct (bytes_eqb n name) eqn:E.
    + apply bytes_eqb_eq in E. subst. destruct Hin as [[= ->]|Hin]; [reflexivity|]. exfalso. apply N1. apply in_map_iff. exists (name, vs). auto.
    + destruct Hin as [[= -> ->]|Hin]; [|auto]. assert (bytes_eqb name name = true) by (now apply bytes_eqb_eq). congruence.
Qed.

(* ------------------------------------------------------------------ C119: the dBase format *)
Record dfield := DField { d_name : list Z; d_type : Z; d_len : nat; d_r1 : list Z; d_r2 : list Z }.
Definition byte (b : Z) : Prop := 0 <= b < 256.
Definition dfield_ok (f : dfield) : Prop :=
  (length (d_name f) <= 11)%nat /\ (forall b, In b (d_name f) -> 1 <= b < 256) /\ byte (d_type f) /\ (d_len f < 256)%nat /\ length (d_r1 f) = 4%nat /\ length (d_r2 f) = 15%nat.
Definition enc_field (f : dfield) : list Z :=
  (d_name f ++ repeat 0 (11 - length (d_name f))) ++ [d_type f] ++ d_r1 f ++ [Z.of_nat (d_len f)] ++ d_r2 f.
(* a row: deletion flag and one value per field *)
Definition enc_row (r : Z * list (list Z)) : list Z := fst r :: concat (snd r).
Definition row_ok (fs : list dfield) (r : Z * list (list Z)) : Prop :=
  Forall2 (fun f v => length v = d_len f /\ forall b, In b v -> byte b) fs (snd r).
Definition total (fs : list dfield) : Z := Z.of_nat (list_sum (map d_len fs)).
Definition enc_dbf (ver : list Z) (res : list Z) (fs : list dfield) (rows : list (Z * list (list Z))) : list Z :=
  (ver ++ enc_le 4 (Z.of_nat (length rows)) ++ enc_le 2 (33 + 32 * Z.of_nat (length fs)) ++ enc_le 2 (1 + total fs) ++ res) ++
  flat_map enc_field fs ++ [13] ++ flat_map enc_row rows.
Lemma read_char_ok b : byte b -> reads read_char [b] b.
Proof.
  intros Hb pre post. unfold read_char. rewrite copy_le_ok by reflexivity. cbn [bind le_value length]. rewrite Z.mul_0_r, Z.add_0_r. reflexivity.
Qed.
Lemma flat_map_single {A} (l : list A) : flat_map (fun x => [x]) l = l.
Proof. induction l as [|a l IH]; cbn; [auto|now rewrite IH]. Qed.
Lemma read_chars_ok l : (forall b, In b l -> byte b) -> reads (times (length l) read_char) l l.
Proof. intros H. pose proof (reads_times read_char (fun x => [x]) l) as R. rewrite flat_map_single in R. apply R. intros a Ha. now apply read_char_ok, H. Qed.
Lemma until_zero_pad l n : (forall b, In b l -> 1 <= b < 256) -> until_zero (l ++ repeat 0 n) = l.
Proof.
  induction l as [|b l IH]; intros H; cbn.
  - destruct n; reflexivity.
  - destruct (Z.eqb_spec b 0) as [->|_]; [exfalso; specialize (H 0 (or_introl eq_refl)); lia|]. f_equal. apply IH. intros x Hx. apply H. now right.
Qed.
(* the length byte is read as a signed char *)
Definition field_of (f : dfield) : field := Field (d_name f) (d_type f) (if (d_len f <? 128)%nat then Z.of_nat (d_len f) else Z.of_nat (d_len f) - 256).
Lemma read_field_ok f : dfield_ok f -> reads read_field (enc_field f) (field_of f) /\ length (enc_field f) = 32%nat.
Proof.
  intros (H1 & H2 & H3 & H4 & H5 & H6).
  assert (L : length (d_name f ++ repeat 0 (11 - length (d_name f))) = 11%nat) by (rewrite app_length, repeat_length; lia). split.
  - unfold read_field, enc_field. rewrite <- L at 1. eapply reads_bind.
    { apply read_chars_ok. intros b Hb. apply in_app_or in Hb as [Hb|Hb]; [apply H2 in Hb; unfold byte; lia|apply repeat_spec in Hb; subst; unfold byte; lia]. }
    cbv beta. rewrite until_zero_pad by exact H2. eapply reads_bind; [now apply read_char_ok|]. cbv beta. eapply reads_bind; [now apply reads_skip|]. cbv beta. eapply reads_bind.
    { intros pre post. unfold read_int8, read_le. rewrite copy_le_ok by reflexivity. cbn [bind le_value length]. rewrite Z.mul_0_r, Z.add_0_r. reflexivity. }
    cbv beta. pose proof (reads_bind_ret (skip 15) (fun _ => field_of f) (d_r2 f) tt (reads_skip 15 _ H6)) as R. unfold field_of in R at 2.
    replace (signed 1 (Z.of_nat (d_len f))) with (if (d_len f <? 128)%nat then Z.of_nat (d_len f) else Z.of_nat (d_len f) - 256); [exact R|].
    unfold signed. change (2 ^ (8 * Z.of_nat 1 - 1)) with 128. change (2 ^ (8 * Z.of_nat 1)) with 256. destruct (Nat.ltb_spec (d_len f) 128), (Z.ltb_spec (Z.of_nat (d_len f)) 128); lia || reflexivity.
  - unfold enc_field. rewrite app_length, L, !app_length, H5, H6. reflexivity.
Qed.
Lemma bytes_eqb_spec a : forall b, bytes_eqb a b = true <-> a = b.
Proof.
  induction a as [|x a IH]; intros [|y b]; cbn; try (intuition discriminate). rewrite Bool.andb_true_iff, Z.eqb_eq, IH.
  split; [intros [-> ->]; auto|]. intros H. injection H as -> ->. auto.
Qed.
Lemma column_push_same t name v : column (push t name v) name = Some (match column t name with Some vs => vs ++ [v] | None => [v] end).
Proof.
  induction t as [|[n vs] t IH]; cbn.
  - now rewrite (proj2 (bytes_eqb_spec name name) eq_refl).
  - destruct (bytes_eqb n name) eqn:E; cbn; rewrite E; auto.
Qed.
Lemma column_push_other t name name' v : name <> name' -> column (push t name v) name' = column t name'.
Proof.
  intros N. induction t as [|[n vs] t IH]; cbn.
  - destruct (bytes_eqb name name') eqn:E; [apply bytes_eqb_spec in E; contradiction|reflexivity].
  - destruct (bytes_eqb n name) eqn:E; cbn.
    + apply bytes_eqb_spec in E. subst n. destruct (bytes_eqb name name') eqn:E; [apply bytes_eqb_spec in E; contradiction|reflexivity].
    + destruct (bytes_eqb n name'); auto.
Qed.
Definition pushed (fs : list dfield) (t : table) (vals : list (list Z)) : table :=
  fold_left (fun t fv => push t (d_name (fst fv)) (snd fv)) (combine fs vals) t.
Lemma read_values_ok fs : forall vals t, (forall f, In f fs -> (d_len f < 128)%nat) -> Forall2 (fun f v => length v = d_len f /\ forall b, In b v -> byte b) fs vals ->
  reads (read_values (map field_of fs) t) (concat vals) (pushed fs t vals).
Proof.
  induction fs as [|f fs IH]; intros vals t Hs H; inversion H as [|x v fs' vals' [Hl Hb] HF]; subst; [apply reads_ret|].
  cbn [map read_values concat]. assert (Hf := Hs f (or_introl eq_refl)). unfold pushed. cbn [combine fold_left fst snd].
  replace (Z.to_nat (f_length (field_of f))) with (length v).
  2:{ unfold field_of. cbn [f_length]. apply Nat.ltb_lt in Hf. rewrite Hf, Nat2Z.id. exact Hl. }
  eapply reads_bind; [now apply read_chars_ok|]. cbv beta. apply IH; [intros; apply Hs; now right|exact HF].
Qed.
Definition filled (fs : list dfield) (rows : list (Z * list (list Z))) (t : table) : table := fold_left (fun t r => pushed fs t (snd r)) rows t.
Lemma read_rows_ok fs rows : (forall f, In f fs -> (d_len f < 128)%nat) -> (forall r, In r rows -> row_ok fs r) -> forall t,
  reads (read_rows (length rows) (map field_of fs) t) (flat_map enc_row rows) (filled fs rows t).
Proof.
  intros Hs. induction rows as [|r rows IH]; intros H t; [apply reads_ret|]. cbn [length read_rows flat_map].
  change (filled fs (r :: rows) t) with (filled fs rows (pushed fs t (snd r))).
  change (enc_row r ++ flat_map enc_row rows) with ([fst r] ++ (concat (snd r) ++ flat_map enc_row rows)). eapply reads_bind; [now apply reads_skip|]. cbv beta.
  eapply reads_bind; [apply read_values_ok; [exact Hs|apply H; now left]|]. cbv beta. apply IH. intros x Hx. apply H. now right.
Qed.
Lemma pushed_other fs : forall vals t name, ~ In name (map d_name fs) -> column (pushed fs t vals) name = column t name.
Proof.
  induction fs as [|f fs IH]; intros [|v vals] t name H; try reflexivity. unfold pushed. cbn [combine fold_left fst snd].
  change (column (pushed fs (push t (d_name f) v) vals) name = column t name). rewrite IH by (intros K; apply H; now right).
  apply column_push_other. intros E. apply H. now left.
Qed.
Lemma pushed_at fs : forall vals t k f v, NoDup (map d_name fs) -> nth_error fs k = Some f -> nth_error vals k = Some v ->
  column (pushed fs t vals) (d_name f) = Some (match column t (d_name f) with Some vs => vs ++ [v] | None => [v] end).
Proof.
  induction fs as [|g fs IH]; intros vals t k f v Hn Hf Hv; [destruct k; discriminate|]. destruct vals as [|w vals]; [destruct k; discriminate|].
  cbn [map] in Hn. inversion Hn as [|x l Hx Hnd]; subst. unfold pushed. cbn [combine fold_left fst snd].
  change (column (pushed fs (push t (d_name g) w) vals) (d_name f) = Some match column t (d_name f) with Some vs => vs ++ [v] | None => [v] end).
  destruct k as [|k]; cbn in Hf, Hv.
  - injection Hf as <-. injection Hv as <-. rewrite pushed_other by exact Hx. apply column_push_same.
  - rewrite (IH vals _ k f v Hnd Hf Hv). rewrite column_push_other; [reflexivity|]. intros E. apply Hx. rewrite E. apply in_map. eapply nth_error_In; eauto.
Qed.
Lemma filled_at fs rows k f : NoDup (map d_name fs) -> nth_error fs k = Some f -> (forall r, In r rows -> length (snd r) = length fs) -> forall t vs,
  column t (d_name f) = Some vs -> column (filled fs rows t) (d_name f) = Some (vs ++ map (fun r => nth k (snd r) []) rows).
Proof.
  intros Hn Hf. induction rows as [|r rows IH]; intros Hr t vs Ht; cbn [map]; [cbn; now rewrite app_nil_r|].
  change (filled fs (r :: rows) t) with (filled fs rows (pushed fs t (snd r))).
  assert (Lk : (k < length (snd r))%nat) by (rewrite (Hr r (or_introl eq_refl)); apply nth_error_Some; congruence).
  rewrite (IH (fun x Hx => Hr x (or_intror Hx)) _ (vs ++ [nth k (snd r) []])); [now rewrite <- app_assoc|].
  rewrite (pushed_at fs (snd r) t k f (nth k (snd r) [])) by (auto; now apply nth_error_nth'). now rewrite Ht.
Qed.
Lemma flat_length {A} (enc : A -> list Z) n l : (forall a, In a l -> length (enc a) = n) -> length (flat_map enc l) = (n * length l)%nat.
Proof. induction l as [|a l IH]; intros H; cbn [flat_map length]; [lia|]. rewrite app_length, IH by (intros; apply H; now right). rewrite (H a) by now left. lia. Qed.
Lemma row_length fs r : row_ok fs r -> Z.of_nat (length (enc_row r)) = 1 + total fs.
Proof.
  unfold row_ok, total, enc_row. generalize (snd r) as vals. intros vals. induction 1 as [|f v fs vals [Hl _] _ IH]; [reflexivity|].
  cbn [length concat map] in *. change (list_sum (d_len f :: map d_len fs)) with (d_len f + list_sum (map d_len fs))%nat. rewrite app_length. lia.
Qed.
Theorem C119_table_partial ver res fs rows trailing : length ver = 4%nat -> length res = 20%nat -> (forall f, In f fs -> dfield_ok f) -> (forall f, In f fs -> (d_len f < 128)%nat) ->
  NoDup (map d_name fs) -> (forall r, In r rows -> row_ok fs r) -> fits 4 (Z.of_nat (length rows)) -> fits 2 (33 + 32 * Z.of_nat (length fs)) -> fits 2 (1 + total fs) -> rows <> [] ->
  exists d, read_dbf (enc_dbf ver res fs rows ++ trailing) = Ok d /\
    map (fun f => (f_name f, f_type f)) (fields d) = map (fun f => (d_name f, d_type f)) fs /\
    forall k f, nth_error fs k = Some f -> get_as_string d (d_name f) = Ok (map (fun r => nth k (snd r) []) rows).
Proof.
  intros Hv Hres Hf Hs Hnd Hr F1 F2 F3 Hne. unfold read_dbf, enc_dbf.
  set (hdr := ver ++ enc_le 4 (Z.of_nat (length rows)) ++ enc_le 2 (33 + 32 * Z.of_nat (length fs)) ++ enc_le 2 (1 + total fs) ++ res).
  assert (HL : length hdr = 32%nat) by (unfold hdr; rewrite !app_length, !enc_le_length; lia).
  set (body := flat_map enc_field fs ++ [13] ++ flat_map enc_row rows).
  assert (EF : (hdr ++ body) ++ trailing = hdr ++ (body ++ trailing)) by now rewrite <- app_assoc.
  rewrite EF. assert (E1 : firstn 32 (hdr ++ (body ++ trailing)) = hdr) by (rewrite <- HL, firstn_app, firstn_all, Nat.sub_diag; cbn [firstn]; apply app_nil_r).
  assert (E2 : skipn 32 (hdr ++ (body ++ trailing)) = body ++ trailing) by (rewrite <- HL, skipn_app, skipn_all, Nat.sub_diag; reflexivity).
  rewrite E1, E2.
  assert (RH : reads (_ <~ skip 4 ;; n <~ read_le 4 ;; hl <~ read_le 2 ;; rl <~ read_le 2 ;; ret (n, hl, rl)) (ver ++ enc_le 4 (Z.of_nat (length rows)) ++ enc_le 2 (33 + 32 * Z.of_nat (length fs)) ++ enc_le 2 (1 + total fs))
     (Z.of_nat (length rows), 33 + 32 * Z.of_nat (length fs), 1 + total fs)).
  { eapply reads_bind; [now apply reads_skip|]. cbv beta. eapply reads_bind; [apply C83_little_endian; [lia|exact F1]|]. cbv beta. eapply reads_bind; [apply C83_little_endian; [lia|exact F2]|]. cbv beta.
    apply (reads_bind_ret (read_le 2) (fun rl => (Z.of_nat (length rows), 33 + 32 * Z.of_nat (length fs), rl))). apply C83_little_endian; [lia|exact F3]. }
  specialize (RH [] res). cbn [app length] in RH. rewrite <- !app_assoc in RH. fold hdr in RH. rewrite RH. cbn [bind fst].
  replace (33 + 32 * Z.of_nat (length fs) - 33) with (Z.of_nat (length fs) * 32) by lia. rewrite Z.quot_mul by lia.
  assert (LF : length (flat_map enc_field fs) = (32 * length fs)%nat) by (apply flat_length; intros f Hin; now apply read_field_ok, Hf).
  assert (LR : Z.of_nat (length (flat_map enc_row rows)) = (1 + total fs) * Z.of_nat (length rows)).
  { clear -Hr. induction rows as [|r rows IH]; cbn [flat_map length]; [lia|]. rewrite app_length, Nat2Z.inj_add, IH by (intros; apply Hr; now right). rewrite (row_length fs r) by (apply Hr; now left). lia. }
  assert (LB : Z.of_nat (length fs) * 32 + 1 + (1 + total fs) * Z.of_nat (length rows) = Z.of_nat (length body)) by (unfold body; rewrite !app_length; cbn [length]; lia).
  rewrite LB. destruct (Z.ltb_spec (Z.of_nat (length body)) 0); [lia|]. rewrite !Nat2Z.id. rewrite firstn_app, firstn_all, Nat.sub_diag. cbn [firstn]. rewrite app_nil_r.
  assert (RF : reads (times (length fs) read_field) (flat_map enc_field fs) (map field_of fs)) by (apply reads_times'; intros f Hin; now apply read_field_ok, Hf).
  unfold body. pose proof (RF [] ([13] ++ flat_map enc_row rows)) as R1. cbn [app length Nat.add] in R1. cbn [app]. rewrite R1. cbn [bind fst snd].
  assert (R2 : read_int8 (flat_map enc_field fs ++ [13] ++ flat_map enc_row rows) (length (flat_map enc_field fs)) = Ok (13, (length (flat_map enc_field fs) + 1)%nat)) by (unfold read_int8, read_le; rewrite copy_le_ok by reflexivity; reflexivity).
  cbn [app] in R2. rewrite R2. cbn [bind fst snd]. change (negb (13 =? 13)) with false. cbv iota.
  pose proof (read_rows_ok fs rows Hs Hr [] (flat_map enc_field fs ++ [13]) []) as R3. rewrite app_nil_r, <- app_assoc, app_length in R3. cbn [length app] in R3. rewrite R3. cbn [bind fst].
  eexists. split; [reflexivity|]. cbn [fields]. split; [rewrite map_map; apply map_ext; intros f; reflexivity|].
  intros k f Hk. unfold get_as_string. cbn [data]. destruct rows as [|r rows]; [contradiction|].
  change (filled fs (r :: rows) []) with (filled fs rows (pushed fs [] (snd r))).
  assert (Hlen : forall x, In x (r :: rows) -> length (snd x) = length fs) by (intros x Hx; specialize (Hr x Hx); unfold row_ok in Hr; symmetry; eapply Forall2_length; exact Hr).
  assert (Lk : (k < length (snd r))%nat) by (rewrite (Hlen r (or_introl eq_refl)); apply nth_error_Some; congruence).
  rewrite (filled_at fs rows k f Hnd Hk (fun x Hx => Hlen x (or_intror Hx)) _ [nth k (snd r) []]); [reflexivity|].
  rewrite (pushed_at fs (snd r) [] k f (nth k (snd r) [])) by (auto; now apply nth_error_nth'). reflexivity.
Qed.
(* a field longer than 127 bytes: the length byte is negative as a signed char, and nothing is read for the field *)
Theorem C119_long_field_refuted f t : dfield_ok f -> (128 <= d_len f)%nat ->
  reads read_field (enc_field f) (field_of f) /\ reads (read_values [field_of f] t) [] (push t (d_name f) []).
Proof.
  intros Hf Hl. split; [now apply read_field_ok|]. destruct Hf as (_ & _ & _ & H & _). cbn [read_values]. unfold field_of. cbn [f_length f_name].
  destruct (Nat.ltb_spec (d_len f) 128); [lia|]. replace (Z.to_nat _) with 0%nat by lia. cbn [times]. apply (reads_bind (ret []) _ [] [] [] _); [apply reads_ret|]. apply reads_ret.
Qed.
(* no rows: the column does not exist and get_as refuses the name of an existing field *)
Theorem C119_empty_table_refuted : exists file f, read_dbf file = Ok f /\ map f_name (fields f) = [[65]] /\ get_as_string f [65] = Throw.
Proof.
  exists (enc_dbf [3; 0; 0; 0] (repeat 0 20) [DField [65] 67 5 (repeat 0 4) (repeat 0 15)] []).
  eexists. split; [vm_compute; reflexivity|]. split; reflexivity.
Qed.

(* ------------------------------------------------------------------ the hypotheses are met *)
Example C118_example : header_ok 9994 1000 (repeat 0 20) (repeat 7 8) /\ vertex_ok (1, 2, 3, 4) /\
  poly_ok (PolyRecord [1; 2; 3; 4] (0, 0) (0, 0) [[(1, 2, 3, 4); (5, 6, 7, 8)]; [(1, 1, 1, 1)]]) /\
  mp_ok (MpRecord [1; 2; 3; 4] (0, 0) (5, 6) [(1, 2, 3, 4); (5, 6, 7, 8)]).
Proof.
  assert (P : forall v, In v (repeat 7 8) -> pattern v) by (intros v Hv; apply repeat_spec in Hv; subst; unfold pattern; lia).
  split; [|split; [|split]].
  - unfold header_ok, fits. cbn -[repeat]. repeat split; try lia; auto; apply P; auto.
  - unfold vertex_ok, pattern. cbn. lia.
  - unfold poly_ok, range_ok, fits, pattern. cbn. repeat split; try lia; try discriminate; try (intros; intuition subst; cbn; lia).
    all: intuition subst; cbn; unfold pattern; lia.
  - unfold mp_ok, range_ok, fits, pattern. cbn. repeat split; try lia; try discriminate; try (intros; intuition subst; cbn; lia).
    all: intuition subst; cbn; unfold pattern; lia.
Qed.
Example C119_example : let fs := [DField [65] 67 2 (repeat 0 4) (repeat 0 15); DField [66; 67] 78 1 (repeat 0 4) (repeat 0 15)] in
  let rows := [(32, [[1; 2]; [3]]); (32, [[4; 5]; [6]])] in
  (forall f, In f fs -> dfield_ok f) /\ NoDup (map d_name fs) /\ (forall r, In r rows -> row_ok fs r) /\ fits 2 (1 + total fs).
Proof.
  cbn zeta. split; [|split; [|split]].
  - intros f [<-|[<-|[]]]; unfold dfield_ok, byte; cbn; repeat split; try lia; intuition lia.
  - repeat constructor; cbn; intuition discriminate.
  - intros r [<-|[<-|[]]]; unfold row_ok; cbn [snd]; (apply Forall2_cons; [split; [reflexivity|]|apply Forall2_cons; [split; [reflexivity|]|apply Forall2_nil]]); unfold byte; cbn; intuition lia.
  - unfold fits, total. cbn. lia.
Qed.
Print Assumptions C118_polygons.
Print Assumptions C119_table_partial.

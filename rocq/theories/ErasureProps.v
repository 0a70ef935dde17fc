From Verif Require Import Base TraitsModel TraitsProps ErasureModel.

(* ------------------------------------------------------------------ specification: value semantics *)
(* A variable holds nothing, or a value, or was moved from.  No addresses: copies are copies of values. *)
Section Spec.
Variable ifaces : list (nat * nat).
Variables (V A R : Type).
Variable call : nat -> nat -> nat -> V -> A -> V * R.
Local Notation object := (object V).
Local Notation op := (op V A).
Inductive aval := AEmpty | AMoved | AHolds (o : object).
Definition aset (e : nat -> option aval) (x : nat) (a : option aval) : nat -> option aval := fun y => if y =? x then a else e y.
Definition moved (a : aval) : aval := match a with AHolds _ => AMoved | b => b end.
(* None: not covered by the property.  Besides the use of variables that do not exist, the excluded operations are: assigning a variable
   to itself, constructing from an empty variable, and testing a variable that was moved from *)
Definition spec_step (e : nat -> option aval) (o : op) : option ((nat -> option aval) * out R) :=
  match o with
  | New _ _ x => match e x with None => Some (aset e x (Some AEmpty), Nothing R) | Some _ => None end
  | Make _ _ x obj => match e x with None => Some (aset e x (Some (AHolds obj)), Nothing R) | Some _ => None end
  | Copy _ _ x y =>
      match e x, e y with None, Some AEmpty => None | None, Some a => Some (aset e x (Some a), Nothing R) | _, _ => None end
  | Move _ _ x y =>
      match e x, e y with None, Some AEmpty => None | None, Some a => Some (aset (aset e y (Some (moved a))) x (Some a), Nothing R) | _, _ => None end
  | Assign _ _ x y =>
      if x =? y then None else match e x, e y with Some _, Some a => Some (aset e x (Some a), Nothing R) | _, _ => None end
  | AssignMove _ _ x y =>
      if x =? y then None else match e x, e y with Some _, Some a => Some (aset (aset e y (Some (moved a))) x (Some a), Nothing R) | _, _ => None end
  | AssignValue _ _ x obj => match e x with Some _ => Some (aset e x (Some (AHolds obj)), Nothing R) | None => None end
  | Destroy _ _ x => match e x with Some _ => Some (aset e x None, Nothing R) | None => None end
  | Test _ _ x => match e x with Some AEmpty => Some (e, Bool R false) | Some (AHolds _) => Some (e, Bool R true) | _ => None end
  | Call _ _ x i n a =>
      match e x with
      | Some (AHolds obj) =>
          match find (fun im => fst im =? i) ifaces with
          | Some (_, m) =>
              if n <? m then
                let '(v, r) := call (o_type V obj) i n (o_value V obj) a in Some (aset e x (Some (AHolds (Object V (o_type V obj) v))), Result R r)
              else None
          | None => None
          end
      | _ => None
      end
  end.
Fixpoint spec_run (e : nat -> option aval) (ops : list op) : option ((nat -> option aval) * list (out R)) :=
  match ops with
  | [] => Some (e, [])
  | o :: r => match spec_step e o with None => None | Some (e1, x) => match spec_run e1 r with None => None | Some (e2, xs) => Some (e2, x :: xs) end end
  end.
End Spec.

(* ------------------------------------------------------------------ memory with unique owners *)
Section Pool.
Context {A : Type}.
Implicit Types (h : list (cell A)) (own : nat -> option nat).
Definition PInv h own : Prop :=
  (forall x p, own x = Some p -> exists a, load h p = Ok a) /\
  (forall x y p, own x = Some p -> own y = Some p -> x = y) /\
  (forall p a, load h p = Ok a -> exists x, own x = Some p).
Definition setf own (x : nat) (q : option nat) : nat -> option nat := fun z => if z =? x then q else own z.
Lemma setf_same own x q : setf own x q x = q.
Proof. unfold setf. now rewrite Nat.eqb_refl. Qed.
Lemma setf_other own x q z : z <> x -> setf own x q z = own z.
Proof. intros N. unfold setf. destruct (Nat.eqb_spec z x); [contradiction|reflexivity]. Qed.
Lemma PInv_ext h own own' : (forall z, own z = own' z) -> PInv h own -> PInv h own'.
Proof.
  intros E (H1 & H2 & H3). split; [|split].
  - intros x p H. rewrite <- E in H. eauto.
  - intros x y p Hx Hy. rewrite <- E in Hx, Hy. eauto.
  - intros p a H. destruct (H3 p a H) as [x Hx]. exists x. now rewrite <- E.
Qed.
Lemma load_alloc h a p b : load h p = Ok b -> load (h ++ [Live a]) p = Ok b.
Proof.
  unfold load, nth_res. intros H. destruct (nth_error h p) eqn:E; [|discriminate]. rewrite nth_error_app1; [now rewrite E|]. apply nth_error_Some. congruence.
Qed.
Lemma load_new h a : load (h ++ [Live a]) (length h) = Ok a.
Proof. unfold load, nth_res. rewrite nth_error_app2 by lia. now rewrite Nat.sub_diag. Qed.
Lemma load_lt h p a : load h p = Ok a -> p < length h.
Proof. unfold load, nth_res. intros H. destruct (nth_error h p) eqn:E; [|discriminate]. apply nth_error_Some. congruence. Qed.
Lemma load_upd_other h p q c : p <> q -> load (upd h q c) p = load h p.
Proof. intros N. unfold load, nth_res. now rewrite nth_error_upd_other by auto. Qed.
Lemma load_upd_same h p c : p < length h -> load (upd h p c) p = match c with Live a => Ok a | Freed => UB end.
Proof. intros N. unfold load, nth_res. now rewrite nth_error_upd_same by auto. Qed.
Definition PStep h own x h' q : Prop :=
  PInv h' (setf own x q) /\ (forall z p, z <> x -> own z = Some p -> load h' p = load h p).
Lemma P_keep h own x : PInv h own -> PStep h own x h (own x).
Proof.
  intros H. split; [|reflexivity]. apply (PInv_ext h own); [|exact H]. intros z. unfold setf. destruct (Nat.eqb_spec z x) as [->|]; reflexivity.
Qed.
Lemma P_trans h own x h1 q1 h2 q2 : PStep h own x h1 q1 -> PStep h1 (setf own x q1) x h2 q2 -> PStep h own x h2 q2.
Proof.
  intros [I1 F1] [I2 F2]. split.
  - apply (PInv_ext h2 (setf (setf own x q1) x q2)); [|exact I2]. intros z. unfold setf. destruct (z =? x); reflexivity.
  - intros z p N H. rewrite (F2 z p N) by (now rewrite setf_other). now apply (F1 z p).
Qed.
Definition drop h (q : option nat) : Res (list (cell A)) := match q with None => Ok h | Some p => free h p end.
Lemma P_release h own x : PInv h own -> exists h', drop h (own x) = Ok h' /\ PStep h own x h' None.
Proof.
  intros HI. destruct (own x) as [p|] eqn:E; cbn [drop].
  - destruct HI as (H1 & H2 & H3). destruct (H1 x p E) as [a Ha]. unfold free. rewrite Ha. cbn [bind]. eexists. split; [reflexivity|].
    assert (N : forall z q, z <> x -> own z = Some q -> q <> p) by (intros z q Nz Hz ->; apply Nz; eapply H2; eauto). split.
    + split; [|split].
      * intros z q Hz. unfold setf in Hz. destruct (Nat.eqb_spec z x) as [->|Nz]; [discriminate|]. rewrite load_upd_other by (eapply N; eauto). eauto.
      * intros y z q Hy Hz. unfold setf in Hy, Hz. destruct (Nat.eqb_spec y x); [discriminate|]. destruct (Nat.eqb_spec z x); [discriminate|]. eauto.
      * intros q b Hq. destruct (Nat.eq_dec q p) as [->|Nq]; [rewrite load_upd_same in Hq by (eapply load_lt; eauto); discriminate|].
        rewrite load_upd_other in Hq by auto. destruct (H3 q b Hq) as [z Hz]. exists z. rewrite setf_other; [exact Hz|]. intros ->. congruence.
    + intros z q Nz Hz. apply load_upd_other. eapply N; eauto.
  - exists h. split; [reflexivity|]. rewrite <- E. now apply P_keep.
Qed.
Lemma P_alloc h own x a : PInv h own -> own x = None -> PStep h own x (h ++ [Live a]) (Some (length h)).
Proof.
  intros (H1 & H2 & H3) E. assert (L : forall z q, own z = Some q -> q < length h) by (intros z q Hz; destruct (H1 z q Hz) as [b Hb]; eapply load_lt; eauto). split; [split; [|split]|].
  - intros z q Hz. unfold setf in Hz. destruct (Nat.eqb_spec z x) as [->|Nz]; [injection Hz as <-; exists a; apply load_new|]. destruct (H1 z q Hz) as [b Hb]. exists b. now apply load_alloc.
  - intros y z q Hy Hz. unfold setf in Hy, Hz. destruct (Nat.eqb_spec y x), (Nat.eqb_spec z x); subst; auto; [injection Hy as <-; apply L in Hz; lia|injection Hz as <-; apply L in Hy; lia|eauto].
  - intros q b Hq. destruct (Nat.eq_dec q (length h)) as [->|Nq]; [exists x; apply setf_same|]. assert (q < length h) by (apply load_lt in Hq; rewrite app_length in Hq; cbn in Hq; lia).
    assert (Hq' : load h q = Ok b) by (unfold load, nth_res in *; now rewrite nth_error_app1 in Hq by auto). destruct (H3 q b Hq') as [z Hz]. exists z. rewrite setf_other; [exact Hz|]. intros ->. congruence.
  - intros z q Nz Hz. destruct (H1 z q Hz) as [b Hb]. rewrite Hb. now apply load_alloc.
Qed.
Lemma P_store h own x p a : PInv h own -> own x = Some p -> store h p a = Ok (upd h p (Live a)) /\ PInv (upd h p (Live a)) own /\ load (upd h p (Live a)) p = Ok a /\
  (forall z q, z <> x -> own z = Some q -> load (upd h p (Live a)) q = load h q).
Proof.
  intros (H1 & H2 & H3) E. destruct (H1 x p E) as [b Hb]. assert (Lp := load_lt _ _ _ Hb). unfold store. rewrite Hb. split; [reflexivity|]. split; [split; [|split]|split].
  - intros z q Hz. destruct (Nat.eq_dec q p) as [->|N]; [exists a; now rewrite load_upd_same|]. rewrite load_upd_other by auto. eauto.
  - exact H2.
  - intros q c Hq. destruct (Nat.eq_dec q p) as [->|N]; [eauto|]. rewrite load_upd_other in Hq by auto. eauto.
  - now rewrite load_upd_same.
  - intros z q N Hz. apply load_upd_other. intros ->. apply N. eapply H2; eauto.
Qed.
Lemma P_move h own x y : PInv h own -> own x = None -> x <> y -> PInv h (setf (setf own y None) x (own y)).
Proof.
  intros (H1 & H2 & H3) E N. split; [|split].
  - intros z p Hz. unfold setf in Hz. destruct (z =? x); [eauto|]. destruct (z =? y); [discriminate|eauto].
  - intros z w p Hz Hw. unfold setf in Hz, Hw. destruct (Nat.eqb_spec z x) as [Ez|Ez], (Nat.eqb_spec w x) as [Ew|Ew].
    + congruence.
    + destruct (Nat.eqb_spec w y) as [Ey|Ey]; [discriminate|]. exfalso. apply Ey. eapply H2; eauto.
    + destruct (Nat.eqb_spec z y) as [Ey|Ey]; [discriminate|]. exfalso. apply Ey. eapply H2; eauto.
    + destruct (z =? y); [discriminate|]. destruct (w =? y); [discriminate|]. eapply H2; eauto.
  - intros p a Hp. destruct (H3 p a Hp) as [z Hz]. destruct (Nat.eq_dec z y) as [->|Nz]; [exists x; now rewrite setf_same|].
    exists z. rewrite !setf_other; auto. intros ->. congruence.
Qed.
End Pool.

(* ------------------------------------------------------------------ the invariant *)
Section Proof.
Variable ifaces : list (nat * nat).
Variables (V A R : Type).
Variable call : nat -> nat -> nat -> V -> A -> V * R.
Hypothesis Hdup : NoDup (map fst ifaces).
Hypothesis Hpos : 0 < list_sum (map snd ifaces).
Hypothesis Hmax : (Z.of_nat (list_sum (map snd ifaces)) < 2 ^ 15)%Z.
Local Notation object := (object V).
Local Notation op := (op V A).
Local Notation state := (state V).
Local Notation aval := (aval V).
Local Notation total := (list_sum (map snd ifaces)).

Definition owner (f : wrapper -> option nat) (e : nat -> option wrapper) (x : nat) : option nat := match e x with Some w => f w | None => None end.
Definition table_ok (vts : list (cell (list (option entry)))) (w : wrapper) (t : nat) : Prop :=
  exists l vt, w_vtable w = Some l /\ load vts l = Ok vt /\ w_size w = Some total /\ length vt = total /\
    forall i m n, In (i, m) ifaces -> n < m -> dispatch vt (w_offsets w) i n = Ok (Entry t i n).
Definition wrapper_ok (objs : list (cell object)) (vts : list (cell (list (option entry)))) (w : wrapper) (a : aval) : Prop :=
  match a with
  | AEmpty _ => w_size w = Some 0 /\ w_ptr w = None /\ (w_vtable w = None \/ exists l, w_vtable w = Some l /\ load vts l = Ok [])
  | AMoved _ => (exists t, table_ok vts w t) /\ w_ptr w = None
  | AHolds _ o => table_ok vts w (o_type V o) /\ w_del w = Some (o_type V o) /\ w_copy w = Some (o_type V o) /\ exists p, w_ptr w = Some p /\ load objs p = Ok o
  end.
Record Rel (s : state) (e : nat -> option aval) : Prop := {
  r_obj : PInv (objects V s) (owner w_ptr (vars V s));
  r_vt : PInv (vtables V s) (owner w_vtable (vars V s));
  r_var : forall x, match vars V s x, e x with None, None => True | Some w, Some a => wrapper_ok (objects V s) (vtables V s) w a | _, _ => False end
}.
Lemma wrapper_frame objs vts objs' vts' w a : wrapper_ok objs vts w a ->
  (forall p, w_ptr w = Some p -> load objs' p = load objs p) -> (forall l, w_vtable w = Some l -> load vts' l = load vts l) -> wrapper_ok objs' vts' w a.
Proof.
  intros H Ho Hv. assert (T : forall t, table_ok vts w t -> table_ok vts' w t).
  { intros t (l & vt & H1 & H2 & H3). exists l, vt. split; [exact H1|]. rewrite (Hv l H1). now split. }
  destruct a as [| |o]; cbn in *.
  - destruct H as (H1 & H2 & H3). repeat split; auto. destruct H3 as [H3|(l & H3 & H4)]; [now left|right]. exists l. rewrite (Hv l H3). now split.
  - destruct H as ([t H1] & H2). split; [exists t; auto|exact H2].
  - destruct H as (H1 & H2 & H3 & p & H4 & H5). repeat split; auto. exists p. rewrite (Ho p H4). now split.
Qed.
Lemma owner_set f e x w z : owner f (set e x w) z = setf (owner f e) x (match w with Some v => f v | None => None end) z.
Proof. unfold owner, set, setf. destruct (z =? x); reflexivity. Qed.
Lemma set_same e x w : set e x w x = w. Proof. unfold set. now rewrite Nat.eqb_refl. Qed.
Lemma set_other e x w z : z <> x -> set e x w z = e z. Proof. intros N. unfold set. destruct (Nat.eqb_spec z x); [contradiction|reflexivity]. Qed.
Lemma aset_same (e : nat -> option aval) x w : aset V e x w x = w. Proof. unfold aset. now rewrite Nat.eqb_refl. Qed.
Lemma aset_other (e : nat -> option aval) x w z : z <> x -> aset V e x w z = e z. Proof. intros N. unfold aset. destruct (Nat.eqb_spec z x); [contradiction|reflexivity]. Qed.

(* one variable changes *)
Lemma rel_set s e x objs vts w a :
  Rel s e -> PStep (objects V s) (owner w_ptr (vars V s)) x objs (match w with Some v => w_ptr v | None => None end) ->
  PStep (vtables V s) (owner w_vtable (vars V s)) x vts (match w with Some v => w_vtable v | None => None end) ->
  match w, a with None, None => True | Some v, Some b => wrapper_ok objs vts v b | _, _ => False end ->
  Rel (State V objs vts (set (vars V s) x w)) (aset V e x a).
Proof.
  intros HR [Io Fo] [Iv Fv] Hw. constructor; cbn [objects vtables vars].
  - apply (PInv_ext objs (setf (owner w_ptr (vars V s)) x (match w with Some v => w_ptr v | None => None end))); [|exact Io]. intros z. symmetry. apply owner_set.
  - apply (PInv_ext vts (setf (owner w_vtable (vars V s)) x (match w with Some v => w_vtable v | None => None end))); [|exact Iv]. intros z. symmetry. apply owner_set.
  - intros z. destruct (Nat.eq_dec z x) as [->|N]; [rewrite set_same, aset_same; exact Hw|]. rewrite set_other, aset_other by auto.
    pose proof (r_var s e HR z) as Hz. destruct (vars V s z) as [v|] eqn:Ez, (e z) as [b|]; auto. eapply wrapper_frame; [exact Hz| |].
    + intros p Hp. apply (Fo z p N). unfold owner. now rewrite Ez.
    + intros l Hl. apply (Fv z l N). unfold owner. now rewrite Ez.
Qed.
(* x takes the object of y, and y keeps its table *)
Lemma rel_move s e x y objs vts wy w a : x <> y -> Rel s e -> vars V s y = Some wy -> e y = Some a ->
  PStep (objects V s) (owner w_ptr (vars V s)) x objs None ->
  PStep (vtables V s) (owner w_vtable (vars V s)) x vts (w_vtable w) -> w_ptr w = w_ptr wy -> wrapper_ok objs vts w a ->
  Rel (State V objs vts (set (set (vars V s) y (Some (Wrapper (w_vtable wy) (w_size wy) (w_offsets wy) None None None))) x (Some w))) (aset V (aset V e y (Some (moved V a))) x (Some a)).
Proof.
  intros N HR Hy Ey [Io Fo] [Iv Fv] Hp Hw. constructor; cbn [objects vtables vars].
  - pose proof (P_move objs (setf (owner w_ptr (vars V s)) x None) x y Io (setf_same _ _ _) N) as M. eapply PInv_ext; [|exact M]. intros z. cbv beta.
    rewrite owner_set. unfold setf. destruct (Nat.eqb_spec z x) as [->|Nz].
    + destruct (Nat.eqb_spec y x); [congruence|]. unfold owner. now rewrite Hy, Hp.
    + rewrite owner_set. cbn [w_ptr]. unfold setf. destruct (z =? y); reflexivity.
  - eapply PInv_ext; [|exact Iv]. intros z. cbv beta. rewrite owner_set. unfold setf. destruct (Nat.eqb_spec z x) as [->|Nz]; [reflexivity|].
    rewrite owner_set. cbn [w_vtable]. unfold setf. destruct (Nat.eqb_spec z y) as [->|]; [|reflexivity]. unfold owner. now rewrite Hy.
  - intros z. destruct (Nat.eq_dec z x) as [->|Nx]; [rewrite set_same, aset_same; exact Hw|]. rewrite set_other, aset_other by auto.
    assert (Fz : forall v b, vars V s z = Some v -> wrapper_ok (objects V s) (vtables V s) v b -> wrapper_ok objs vts v b).
    { intros v b Ez Hz. eapply wrapper_frame; [exact Hz| |]; [intros p Hq; apply (Fo z p Nx)|intros l Hq; apply (Fv z l Nx)]; unfold owner; now rewrite Ez. }
    destruct (Nat.eq_dec z y) as [->|Ny].
    + rewrite set_same, aset_same. pose proof (r_var s e HR y) as Hz. rewrite Hy, Ey in Hz. apply (Fz wy a Hy) in Hz. destruct a as [| |o]; cbn in *.
      * intuition.
      * intuition.
      * destruct Hz as (T & _). split; [|reflexivity]. exists (o_type V o). exact T.
    + rewrite set_other, aset_other by auto. pose proof (r_var s e HR z) as Hz. destruct (vars V s z) as [v|] eqn:Ez, (e z) as [b|]; auto.
Qed.

(* ------------------------------------------------------------------ primitives *)
Lemma store_new (h : list (cell (list (option entry)))) a b : store (h ++ [Live a]) (length h) b = Ok (h ++ [Live b]).
Proof.
  unfold store. rewrite load_new. cbn [bind]. f_equal. induction h as [|c h IH]; cbn; [reflexivity|now rewrite IH].
Qed.
Lemma mapM_nth_all {B} (t : list B) f : (forall i b, nth_error t i = Some b -> f i = Ok b) -> mapM f (seq 0 (length t)) = Ok t.
Proof.
  assert (G : forall t s, (forall i b, nth_error t i = Some b -> f (s + i) = Ok b) -> mapM f (seq s (length t)) = Ok t).
  { clear. induction t as [|b t IH]; intros s H; [reflexivity|]. cbn [length seq mapM]. specialize (H 0 b eq_refl) as H0. rewrite Nat.add_0_r in H0. rewrite H0. cbn [bind].
    rewrite (IH (S s)); [reflexivity|]. intros i c Hi. replace (S s + i) with (s + S i) by lia. now apply H. }
  intros H. now apply (G t 0).
Qed.
Lemma vtable_copy_ok h p t : load h p = Ok t -> forall src, (forall l, src l = Some p) -> vtable_copy h (Some (length t)) src = Ok (h ++ [Live t], length h, length t).
Proof.
  intros H src Hs. unfold vtable_copy, alloc. rewrite (mapM_nth_all t).
  - cbn [bind]. rewrite store_new. reflexivity.
  - intros i b Hi. rewrite Hs. rewrite (load_alloc _ _ _ _ H). cbn [bind]. now apply nth_res_ok.
Qed.
Lemma vtable_copy_nil h src : vtable_copy h (Some 0) src = Ok (h ++ [Live []], length h, 0).
Proof. unfold vtable_copy, alloc. cbn [seq mapM bind repeat]. rewrite store_new. reflexivity. Qed.
Lemma init_vtable_length {M} (fs : list M) : forall n vt vt', init_vtable n fs vt = Ok vt' -> length vt' = length vt.
Proof.
  induction fs as [|f r IH]; intros n vt vt' H; [discriminate|]. assert (U : forall v, upd_res vt n (Some f) = Ok v -> length v = length vt).
  { unfold upd_res. intros v Hv. destruct (n <? length vt); [|discriminate]. injection Hv as <-. apply upd_length. }
  destruct r as [|g r]; [now apply U|]. change (init_vtable n (f :: g :: r) vt) with (vt1 <- upd_res vt n (Some f) ;; init_vtable (S n) (g :: r) vt1) in H.
  destruct (upd_res vt n (Some f)) as [v| | |] eqn:E; try discriminate. cbn [bind] in H. rewrite (IH _ _ _ H). now apply U.
Qed.
Lemma methods_fst t : map fst (methods ifaces t) = map fst ifaces.
Proof. unfold methods. rewrite map_map. reflexivity. Qed.
Lemma methods_sum t : list_sum (map (fun im => length (snd im)) (methods ifaces t)) = total.
Proof. unfold methods. rewrite map_map. f_equal. apply map_ext. intros [i m]. cbn. now rewrite map_length, seq_length. Qed.
Lemma vtable_init_ok t off : exists vt off', vtable_init (methods ifaces t) off = Ok (vt, off') /\ length vt = total /\
  forall i m n, In (i, m) ifaces -> n < m -> dispatch vt off' i n = Ok (Entry t i n).
Proof.
  destruct (C88_dispatch (methods ifaces t) off) as (vt & off' & E & D).
  - now rewrite methods_fst.
  - intros E. assert (L := concat_length (methods ifaces t)). rewrite E, methods_sum in L. cbn in L. lia.
  - now rewrite concat_length, methods_sum.
  - exists vt, off'. split; [exact E|]. split.
    + unfold vtable_init in E. destruct (merge _); [|discriminate]. destruct (init_vtable 0 l _) as [v| | |] eqn:Ei; try discriminate. cbn in E. injection E as <- <-.
      apply init_vtable_length in Ei. now rewrite repeat_length, methods_sum in Ei.
    + intros i m n Hi Hn. apply In_nth_error in Hi as [k Hk]. apply (D k i (map (Entry t i) (seq 0 m)) n (Entry t i n)).
      * unfold methods. rewrite nth_error_map, Hk. reflexivity.
      * rewrite nth_error_map. rewrite nth_error_seq. destruct (Nat.ltb_spec n m); [reflexivity|lia].
Qed.
Lemma drop_vtable h w : release_vtable h w = drop h (w_vtable w).
Proof. reflexivity. Qed.
Lemma init_table_ok s e x w t : Rel s e -> owner w_vtable (vars V s) x = w_vtable w -> exists vts w', init_table ifaces (vtables V s) w t = Ok (vts, w') /\
  PStep (vtables V s) (owner w_vtable (vars V s)) x vts (w_vtable w') /\ table_ok vts w' t /\ w_ptr w' = w_ptr w /\ w_del w' = w_del w /\ w_copy w' = w_copy w.
Proof.
  intros HR Ho. unfold init_table. rewrite drop_vtable, <- Ho. destruct (P_release _ _ x (r_vt s e HR)) as (h1 & E1 & S1). rewrite E1. cbn [bind].
  destruct (vtable_init_ok t (w_offsets w)) as (vt & off' & E & L & D). rewrite E. cbn [bind alloc]. eexists. eexists. split; [reflexivity|]. cbn [w_vtable w_ptr w_del w_copy].
  split; [|split; [|auto]].
  - eapply P_trans; [exact S1|]. apply P_alloc; [apply S1|apply setf_same].
  - exists (length h1), vt. cbn [w_vtable w_size w_offsets]. rewrite load_new. auto.
Qed.
(* handler of a copy: same table in a new array *)
Lemma handler_copy_ok s e x y wy a : Rel s e -> vars V s x = None -> vars V s y = Some wy -> e y = Some a -> a <> AEmpty V -> exists vts l, handler_copy (vtables V s) wy = Ok (vts, Some l, Some total) /\
  PStep (vtables V s) (owner w_vtable (vars V s)) x vts (Some l) /\
  forall t, table_ok (vtables V s) wy t -> forall p d c, table_ok vts (Wrapper (Some l) (Some total) (w_offsets wy) p d c) t.
Proof.
  intros HR Hx Hy Ey Na. pose proof (r_var s e HR y) as Hw. rewrite Hy, Ey in Hw.
  assert (exists t, table_ok (vtables V s) wy t) as [t T] by (destruct a as [| |o]; cbn in Hw; [contradiction|tauto|exists (o_type V o); tauto]).
  destruct T as (l & vt & H1 & H2 & H3 & H4 & H5). unfold handler_copy. rewrite H1, H3, <- H4. rewrite (vtable_copy_ok _ l vt H2 _ (fun _ => eq_refl)). cbn [bind].
  eexists. eexists. split; [rewrite H4; reflexivity|]. split.
  - apply P_alloc; [apply (r_vt s e HR)|]. unfold owner. now rewrite Hx.
  - intros t' (l' & vt' & K1 & K2 & K3 & K4 & K5) p d c. assert (l' = l) by congruence. subst l'. assert (vt' = vt) by congruence. subst vt'.
    exists (length (vtables V s)), vt. cbn [w_vtable w_size w_offsets]. rewrite load_new. auto.
Qed.
Lemma handler_assign_ok s e x y wx wy a : x <> y -> Rel s e -> vars V s x = Some wx -> vars V s y = Some wy -> e y = Some a -> exists vts l n, handler_assign (vtables V s) x y wx wy = Ok (vts, l, n) /\
  PStep (vtables V s) (owner w_vtable (vars V s)) x vts (Some l) /\
  match a with AEmpty _ => n = 0 /\ load vts l = Ok []
  | _ => n = total /\ forall t, table_ok (vtables V s) wy t -> forall p d c, table_ok vts (Wrapper (Some l) (Some total) (w_offsets wy) p d c) t end.
Proof.
  intros Nxy HR Hx Hy Ey. unfold handler_assign. rewrite drop_vtable. assert (Ox : owner w_vtable (vars V s) x = w_vtable wx) by (unfold owner; now rewrite Hx). rewrite <- Ox.
  destruct (P_release _ _ x (r_vt s e HR)) as (h1 & E1 & S1). rewrite E1. cbn [bind]. destruct (Nat.eqb_spec x y); [contradiction|].
  pose proof (r_var s e HR y) as Hw. rewrite Hy, Ey in Hw.
  assert (P : forall t, PStep (vtables V s) (owner w_vtable (vars V s)) x (h1 ++ [Live t]) (Some (length h1))).
  { intros t. eapply P_trans; [exact S1|]. apply P_alloc; [apply S1|apply setf_same]. }
  assert (C : (exists t, table_ok (vtables V s) wy t) -> exists vts l, vtable_copy h1 (w_size wy) (fun _ => w_vtable wy) = Ok (vts, l, total) /\ PStep (vtables V s) (owner w_vtable (vars V s)) x vts (Some l) /\
     forall t, table_ok (vtables V s) wy t -> forall p d c, table_ok vts (Wrapper (Some l) (Some total) (w_offsets wy) p d c) t).
  { intros [t (l & vt & H1 & H2 & H3 & H4 & H5)]. assert (L1 : load h1 l = Ok vt) by (rewrite (proj2 S1 y l) by (auto; unfold owner; now rewrite Hy); exact H2).
    rewrite H3, <- H4. rewrite (vtable_copy_ok h1 l vt L1) by auto. eexists. eexists. split; [reflexivity|]. split; [apply P|].
    intros t' (l' & vt' & K1 & K2 & K3 & K4 & K5) p d c. assert (l' = l) by congruence. subst l'. assert (vt' = vt) by congruence. subst vt'.
    exists (length h1), vt. cbn [w_vtable w_size w_offsets]. rewrite load_new. rewrite H4. auto. }
  destruct a as [| |o]; cbn in Hw.
  - destruct Hw as (H1 & _). rewrite H1, vtable_copy_nil. eexists. eexists. eexists. split; [reflexivity|]. split; [apply P|]. split; [reflexivity|apply load_new].
  - destruct (C (proj1 Hw)) as (vts & l & E & S & T). rewrite E. eauto 10.
  - destruct (C (ex_intro _ _ (proj1 Hw))) as (vts & l & E & S & T). rewrite E. eauto 10.
Qed.
(* the object of x is destroyed *)
Lemma release_ok s e x wx : Rel s e -> vars V s x = Some wx -> forall objs, (forall p o, w_ptr wx = Some p -> load (objects V s) p = Ok o -> load objs p = Ok o) ->
  release V objs wx = drop objs (w_ptr wx).
Proof.
  intros HR Hx objs Hl. pose proof (r_var s e HR x) as Hw. rewrite Hx in Hw. destruct (e x) as [a|]; [|contradiction]. unfold release. destruct (w_ptr wx) as [p|] eqn:E; [|reflexivity].
  destruct a as [| |o]; cbn in Hw; [exfalso; destruct Hw as (_ & K & _); congruence|exfalso; destruct Hw as (_ & K); congruence|].
  destruct Hw as (_ & D & _ & q & Hq & Lq). assert (q = p) by congruence. subst q. cbn [drop]. unfold delete_object. rewrite D, (Hl p o eq_refl Lq). cbn [bind]. now rewrite Nat.eqb_refl.
Qed.
Lemma release_step s e x wx : Rel s e -> vars V s x = Some wx -> exists objs, release V (objects V s) wx = Ok objs /\ PStep (objects V s) (owner w_ptr (vars V s)) x objs None.
Proof.
  intros HR Hx. rewrite (release_ok s e x wx HR Hx) by auto. assert (Ox : owner w_ptr (vars V s) x = w_ptr wx) by (unfold owner; now rewrite Hx). rewrite <- Ox. apply P_release, (r_obj s e HR).
Qed.
(* the object of y is copied into the fresh storage of x *)
Lemma copy_step s e x y wy a objs : x <> y -> Rel s e -> vars V s y = Some wy -> e y = Some a -> PStep (objects V s) (owner w_ptr (vars V s)) x objs None ->
  exists objs' p, copy_object V objs wy = Ok (objs', p) /\ PStep (objects V s) (owner w_ptr (vars V s)) x objs' p /\
    match a with AHolds _ o => exists q, p = Some q /\ load objs' q = Ok o | _ => p = None end.
Proof.
  intros N HR Hy Ey S. pose proof (r_var s e HR y) as Hw. rewrite Hy, Ey in Hw. unfold copy_object. destruct a as [| |o]; cbn in Hw.
  - destruct Hw as (_ & -> & _). eauto.
  - destruct Hw as (_ & ->). eauto.
  - destruct Hw as (_ & _ & D & p & Hp & Lp). rewrite Hp, D. assert (L1 : load objs p = Ok o) by (rewrite (proj2 S y p) by (auto; unfold owner; now rewrite Hy); exact Lp).
    rewrite L1. cbn [bind]. rewrite Nat.eqb_refl. cbn [alloc]. eexists. eexists. split; [reflexivity|]. split.
    + eapply P_trans; [exact S|]. apply P_alloc; [apply S|apply setf_same].
    + exists (length objs). split; [reflexivity|apply load_new].
Qed.
Lemma dead_step {B} (h : list (cell B)) own x : PInv h own -> own x = None -> PStep h own x h None.
Proof. intros H E. rewrite <- E. now apply P_keep. Qed.

(* ------------------------------------------------------------------ every operation *)
Lemma step_ok s e o e' r : Rel s e -> spec_step ifaces V A R call e o = Some (e', r) -> exists s', step ifaces V A R call s o = Ok (s', r) /\ Rel s' e'.
Proof.
  intros HR H. assert (OD : forall x, vars V s x = None -> owner w_ptr (vars V s) x = None) by (intros x E; unfold owner; now rewrite E).
  assert (VD : forall x, vars V s x = None -> owner w_vtable (vars V s) x = None) by (intros x E; unfold owner; now rewrite E).
  assert (AV : forall x, e x = None -> vars V s x = None) by (intros x E; pose proof (r_var s e HR x) as K; rewrite E in K; destruct (vars V s x); [contradiction|reflexivity]).
  assert (AL : forall x a, e x = Some a -> exists w, vars V s x = Some w /\ wrapper_ok (objects V s) (vtables V s) w a).
  { intros x a E. pose proof (r_var s e HR x) as K. rewrite E in K. destruct (vars V s x) as [w|]; [eauto|contradiction]. }
  destruct o as [x|x obj|x y|x y|x y|x y|x obj|x|x|x i n arg]; cbn [spec_step] in H; cbn [step]; unfold fresh, live.
  - (* New *) destruct (e x) eqn:Ex; [discriminate|]. injection H as <- <-. rewrite (AV x Ex). cbn [bind]. eexists. split; [reflexivity|].
    apply rel_set; [exact HR|apply dead_step; [apply HR|auto]|apply dead_step; [apply HR|auto]|]. cbn. auto.
  - (* Make *) destruct (e x) eqn:Ex; [discriminate|]. injection H as <- <-. assert (Vx := AV x Ex). rewrite Vx. cbn [bind alloc].
    destruct (init_table_ok s e x (Wrapper None (Some 0) [] (Some (length (objects V s))) (Some (o_type V obj)) (Some (o_type V obj))) (o_type V obj) HR) as (vts & w & E & S & T & P1 & P2 & P3); [cbn; auto|].
    rewrite E. cbn [bind]. eexists. split; [reflexivity|]. cbn [w_ptr w_del w_copy] in P1, P2, P3. apply rel_set; [exact HR| |exact S|].
    + rewrite P1. apply P_alloc; [apply HR|auto].
    + cbn. split; [exact T|]. split; [exact P2|]. split; [exact P3|]. exists (length (objects V s)). split; [exact P1|apply load_new].
  - (* Copy *) destruct (e x) eqn:Ex; [discriminate|]. assert (Vx := AV x Ex). destruct (e y) as [a|] eqn:Ey; [|discriminate]. destruct (AL y a Ey) as (wy & Vy & Wy).
    assert (Na : a <> AEmpty V) by (intros ->; discriminate). assert (H' : (aset V e x (Some a), Nothing R) = (e', r)) by (destruct a; congruence). injection H' as <- <-. clear H.
    assert (Nxy : x <> y) by congruence. rewrite Vx, Vy. cbn [bind].
    destruct (handler_copy_ok s e x y wy a HR Vx Vy Ey Na) as (vts & l & E & S & T). rewrite E. cbn [bind].
    destruct (copy_step s e x y wy a (objects V s) Nxy HR Vy Ey) as (objs & p & E2 & S2 & K); [apply dead_step; [apply HR|auto]|]. rewrite E2. cbn [bind]. eexists. split; [reflexivity|].
    apply rel_set; [exact HR|exact S2|exact S|]. destruct a as [| |o]; [contradiction| |]; cbn in Wy |- *.
    + destruct Wy as [[t Ht] _]. split; [exists t; now apply T|exact K].
    + destruct Wy as (Ht & D1 & D2 & _). split; [now apply T|]. auto.
  - (* Move *) destruct (e x) eqn:Ex; [discriminate|]. assert (Vx := AV x Ex). destruct (e y) as [a|] eqn:Ey; [|discriminate]. destruct (AL y a Ey) as (wy & Vy & Wy).
    assert (Na : a <> AEmpty V) by (intros ->; discriminate). assert (H' : (aset V (aset V e y (Some (moved V a))) x (Some a), Nothing R) = (e', r)) by (destruct a; congruence). injection H' as <- <-. clear H.
    assert (Nxy : x <> y) by congruence. rewrite Vx, Vy. cbn [bind].
    destruct (handler_copy_ok s e x y wy a HR Vx Vy Ey Na) as (vts & l & E & S & T). rewrite E. cbn [bind]. eexists. split; [reflexivity|].
    apply rel_move; auto; [apply dead_step; [apply HR|auto]|]. destruct a as [| |o]; [contradiction| |]; cbn in Wy |- *.
    + destruct Wy as [[t Ht] K]. split; [exists t; now apply T|exact K].
    + destruct Wy as (Ht & D1 & D2 & K). split; [now apply T|]. auto.
  - (* Assign *) destruct (Nat.eqb_spec x y) as [|Nxy]; [discriminate|]. destruct (e x) as [b|] eqn:Ex; [|discriminate]. destruct (e y) as [a|] eqn:Ey; [|discriminate]. injection H as <- <-.
    destruct (AL x b Ex) as (wx & Vx & Wx). destruct (AL y a Ey) as (wy & Vy & Wy). rewrite Vx, Vy. cbn [bind].
    destruct (handler_assign_ok s e x y wx wy a Nxy HR Vx Vy Ey) as (vts & l & n & E & S & T). rewrite E. cbn [bind].
    destruct (release_step s e x wx HR Vx) as (o1 & E1 & S1). rewrite E1. cbn [bind].
    destruct (copy_step s e x y wy a o1 Nxy HR Vy Ey S1) as (objs & p & E2 & S2 & K). rewrite E2. cbn [bind]. eexists. split; [reflexivity|].
    apply rel_set; [exact HR|exact S2|exact S|]. destruct a as [| |o]; cbn in Wy |- *.
    + destruct T as [-> T]. split; [reflexivity|]. split; [exact K|]. right. eauto.
    + destruct T as [-> T], Wy as [[t Ht] _]. split; [exists t; now apply T|exact K].
    + destruct T as [-> T], Wy as (Ht & D1 & D2 & _). split; [now apply T|]. auto.
  - (* AssignMove *) destruct (Nat.eqb_spec x y) as [|Nxy]; [discriminate|]. destruct (e x) as [b|] eqn:Ex; [|discriminate]. destruct (e y) as [a|] eqn:Ey; [|discriminate]. injection H as <- <-.
    destruct (AL x b Ex) as (wx & Vx & Wx). destruct (AL y a Ey) as (wy & Vy & Wy). rewrite Vx, Vy. cbn [bind].
    destruct (handler_assign_ok s e x y wx wy a Nxy HR Vx Vy Ey) as (vts & l & n & E & S & T). rewrite E. cbn [bind].
    destruct (release_step s e x wx HR Vx) as (o1 & E1 & S1). rewrite E1. cbn [bind]. eexists. split; [reflexivity|].
    apply rel_move; auto. destruct a as [| |o]; cbn in Wy |- *.
    + destruct T as [-> T], Wy as (_ & K & _). split; [reflexivity|]. split; [exact K|]. right. eauto.
    + destruct T as [-> T], Wy as [[t Ht] K]. split; [exists t; now apply T|exact K].
    + destruct T as [-> T], Wy as (Ht & D1 & D2 & p & Hp & Lp). split; [now apply T|]. split; [exact D1|]. split; [exact D2|]. exists p. split; [exact Hp|].
      rewrite (proj2 S1 y p) by (auto; unfold owner; now rewrite Vy). exact Lp.
  - (* AssignValue *) destruct (e x) as [b|] eqn:Ex; [|discriminate]. injection H as <- <-. destruct (AL x b Ex) as (wx & Vx & Wx). rewrite Vx. cbn [bind alloc].
    assert (Lx : forall p o, w_ptr wx = Some p -> load (objects V s) p = Ok o -> load (objects V s ++ [Live obj]) p = Ok o) by (intros; now apply load_alloc).
    rewrite (release_ok s e x wx HR Vx _ Lx).
    (* free after the allocation of the new object *)
    assert (HF : exists objs, drop (objects V s ++ [Live obj]) (w_ptr wx) = Ok objs /\ PStep (objects V s) (owner w_ptr (vars V s)) x objs (Some (length (objects V s))) /\ load objs (length (objects V s)) = Ok obj).
    { assert (Ox : owner w_ptr (vars V s) x = w_ptr wx) by (unfold owner; now rewrite Vx). destruct (P_release _ _ x (r_obj s e HR)) as (h1 & E1 & S1). rewrite Ox in E1.
      destruct (w_ptr wx) as [p|] eqn:Ep; cbn [drop] in *.
      - assert (exists o, load (objects V s) p = Ok o) as [o Lo] by (destruct (r_obj s e HR) as (G & _); apply (G x p Ox)).
        unfold free in *. rewrite (load_alloc _ _ _ _ Lo). rewrite Lo in E1. cbn [bind] in *. injection E1 as <-. eexists. split; [reflexivity|].
        assert (U : upd (objects V s ++ [Live obj]) p Freed = upd (objects V s) p Freed ++ [Live obj]).
        { assert (Lp := load_lt _ _ _ Lo). clear -Lp. revert p Lp. generalize (objects V s) as h. induction h as [|c h IH]; intros [|p] L; cbn in *; try lia; [reflexivity|]. now rewrite IH by lia. }
        rewrite U. assert (LU : length (objects V s) = length (upd (objects V s) p Freed)) by now rewrite upd_length. rewrite LU. split; [|apply load_new].
        eapply P_trans; [exact S1|]. apply P_alloc; [apply S1|apply setf_same].
      - injection E1 as <-. eexists. split; [reflexivity|]. split; [|apply load_new]. apply P_alloc; [apply HR|exact Ox]. }
    destruct HF as (objs & E1 & S1 & L1). rewrite E1. cbn [bind].
    destruct (init_table_ok s e x (Wrapper (w_vtable wx) (w_size wx) (w_offsets wx) (Some (length (objects V s))) (Some (o_type V obj)) (Some (o_type V obj))) (o_type V obj) HR) as (vts & w & E & S & T & P1 & P2 & P3); [cbn; unfold owner; now rewrite Vx|].
    rewrite E. cbn [bind]. eexists. split; [reflexivity|]. cbn [w_ptr w_del w_copy] in P1, P2, P3. apply rel_set; [exact HR| |exact S|].
    + rewrite P1. exact S1.
    + cbn. split; [exact T|]. split; [exact P2|]. split; [exact P3|]. exists (length (objects V s)). split; [exact P1|exact L1].
  - (* Destroy *) destruct (e x) as [b|] eqn:Ex; [|discriminate]. injection H as <- <-. destruct (AL x b Ex) as (wx & Vx & Wx). rewrite Vx. cbn [bind].
    destruct (release_step s e x wx HR Vx) as (o1 & E1 & S1). rewrite E1. cbn [bind]. rewrite drop_vtable. assert (Ox : owner w_vtable (vars V s) x = w_vtable wx) by (unfold owner; now rewrite Vx). rewrite <- Ox.
    destruct (P_release _ _ x (r_vt s e HR)) as (v1 & E2 & S2). rewrite E2. cbn [bind]. eexists. split; [reflexivity|]. apply rel_set; auto.
  - (* Test *) destruct (e x) as [a|] eqn:Ex; [|discriminate]. destruct (AL x a Ex) as (wx & Vx & Wx). rewrite Vx. cbn [bind]. destruct a as [| |o]; cbn in Wx; [|discriminate|].
    + injection H as <- <-. destruct Wx as (-> & _). eauto.
    + injection H as <- <-. destruct Wx as ((l & vt & _ & _ & -> & _) & _). exists s. split; [|exact HR]. destruct (Nat.eqb_spec total 0); [lia|reflexivity].
  - (* Call *) destruct (e x) as [a|] eqn:Ex; [|discriminate]. destruct a as [| |o]; try discriminate. destruct (AL x _ Ex) as (wx & Vx & Wx). rewrite Vx. cbn [bind]. cbn in Wx.
    destruct (find (fun im => fst im =? i) ifaces) as [[j m]|] eqn:Ef; [|discriminate]. destruct (Nat.ltb_spec n m) as [Hn|]; [|discriminate].
    apply find_some in Ef as [Hin Hij]. cbn in Hij. apply Nat.eqb_eq in Hij. subst j.
    destruct Wx as (T & D1 & D2 & p & Hp & Lp). destruct T as (l & vt & H1 & H2 & H3 & H4 & H5). rewrite H1, H2. cbn [bind]. rewrite (H5 i m n Hin Hn). cbn [bind]. rewrite Hp, Lp. cbn [bind e_type e_iface e_n].
    rewrite Nat.eqb_refl. destruct (call (o_type V o) i n (o_value V o) arg) as [v' res] eqn:Ec. injection H as <- <-.
    assert (Ox : owner w_ptr (vars V s) x = Some p) by (unfold owner; now rewrite Vx).
    destruct (P_store (objects V s) _ x p (Object V (o_type V o) v') (r_obj s e HR) Ox) as (E1 & I1 & L1 & F1). rewrite E1. cbn [bind]. eexists. split; [reflexivity|].
    constructor; cbn [objects vtables vars]; [exact I1|apply HR|]. intros z. destruct (Nat.eq_dec z x) as [->|N].
    + rewrite Vx, aset_same. cbn. split; [exists l, vt; auto|]. split; [exact D1|]. split; [exact D2|]. exists p. auto.
    + rewrite aset_other by auto. pose proof (r_var s e HR z) as Hz. destruct (vars V s z) as [v|] eqn:Ez, (e z) as [b|]; auto. eapply wrapper_frame; [exact Hz| |auto].
      intros q Hq. apply (F1 z q N). unfold owner. now rewrite Ez.
Qed.
Lemma run_ok ops : forall s e e' r, Rel s e -> spec_run ifaces V A R call e ops = Some (e', r) -> exists s', run ifaces V A R call s ops = Ok (s', r) /\ Rel s' e'.
Proof.
  induction ops as [|o ops IH]; intros s e e' r HR H; cbn in H.
  - injection H as <- <-. exists s. split; [reflexivity|exact HR].
  - destruct (spec_step ifaces V A R call e o) as [[e1 x]|] eqn:E; [|discriminate]. destruct (spec_run ifaces V A R call e1 ops) as [[e2 xs]|] eqn:E2; [|discriminate]. injection H as <- <-.
    destruct (step_ok s e o e1 x HR E) as (s1 & S1 & R1). destruct (IH s1 e1 e2 xs R1 E2) as (s2 & S2 & R2). exists s2. split; [|exact R2].
    cbn [run]. rewrite S1. cbn [bind fst snd]. rewrite S2. reflexivity.
Qed.
Lemma rel_init : Rel (init V) (fun _ => None).
Proof.
  constructor; cbn; auto.
  - split; [|split]; [intros; discriminate|intros; discriminate|]. intros p a H. destruct p; discriminate.
  - split; [|split]; [intros; discriminate|intros; discriminate|]. intros p a H. destruct p; discriminate.
Qed.
(* any history of operations behaves as on values, without undefined behaviour; once all variables are gone nothing is left allocated *)
Theorem C87_value_semantics_partial ops e outs : spec_run ifaces V A R call (fun _ => None) ops = Some (e, outs) ->
  exists s, run ifaces V A R call (init V) ops = Ok (s, outs) /\
    ((forall x, e x = None) -> (forall c, In c (objects V s) -> c = Freed) /\ (forall c, In c (vtables V s) -> c = Freed)).
Proof.
  intros H. destruct (run_ok ops (init V) _ e outs rel_init H) as (s & E & HR). exists s. split; [exact E|]. intros Hd.
  assert (Vd : forall x, vars V s x = None) by (intros x; pose proof (r_var s e HR x) as K; rewrite Hd in K; destruct (vars V s x); [contradiction|reflexivity]).
  split; intros [a|] Hc; auto; exfalso; apply In_nth_error in Hc as [p Hp].
  - destruct (r_obj s e HR) as (_ & _ & K). destruct (K p a) as [x Hx]; [unfold load, nth_res; now rewrite Hp|]. unfold owner in Hx. rewrite Vd in Hx. discriminate.
  - destruct (r_vt s e HR) as (_ & _ & K). destruct (K p a) as [x Hx]; [unfold load, nth_res; now rewrite Hp|]. unfold owner in Hx. rewrite Vd in Hx. discriminate.
Qed.
End Proof.

(* ------------------------------------------------------------------ what the partial theorem excludes *)
(* one interface with one method, integer values, the method doubles its object and returns the new value *)
Definition ex_call (t i n : nat) (v : nat) (a : unit) : nat * nat := (2 * v, 2 * v).
Local Notation ex_run := (run [(0, 1)] nat unit nat ex_call (init nat)).
Local Notation ex_out r := (match r with Ok (_, o) => Ok o | Throw => Throw | UB => UB | OutOfFuel => OutOfFuel end).
(* x = x: the object is deleted and then copied *)
Theorem C87_self_assign_refuted : ex_run [Make nat unit 0 (Object nat 0 1); Assign nat unit 0 0] = UB.
Proof. reflexivity. Qed.
(* x = std::move(x): x is left with a freed object, deleted again at the end of its life *)
Theorem C87_self_move_refuted : ex_run [Make nat unit 0 (Object nat 0 1); AssignMove nat unit 0 0; Destroy nat unit 0] = UB.
Proof. reflexivity. Qed.
(* erase a; erase b(a); if (b): the size is indeterminate *)
Theorem C87_copy_of_empty_refuted : ex_run [New nat unit 0; Copy nat unit 1 0; Test nat unit 1] = UB.
Proof. reflexivity. Qed.
(* a variable that was moved from tests true, and calling it reaches no object *)
Theorem C87_moved_from_refuted :
  ex_out (ex_run [Make nat unit 0 (Object nat 0 1); Move nat unit 1 0; Test nat unit 0]) = Ok [Nothing nat; Nothing nat; Bool nat true] /\
  ex_run [Make nat unit 0 (Object nat 0 1); Move nat unit 1 0; Call nat unit 0 0 0 tt] = UB.
Proof. split; reflexivity. Qed.

Example C87_example : exists e, spec_run [(0, 1)] nat unit nat ex_call (fun _ => None)
  [Make nat unit 0 (Object nat 0 5); Copy nat unit 1 0; Call nat unit 0 0 0 tt; Call nat unit 0 0 0 tt; Call nat unit 1 0 0 tt; AssignValue nat unit 1 (Object nat 3 7); Move nat unit 2 1;
   Assign nat unit 1 0; New nat unit 4; AssignMove nat unit 2 4; Call nat unit 1 0 0 tt; Test nat unit 2; Destroy nat unit 0; Destroy nat unit 1; Destroy nat unit 2; Destroy nat unit 4]
  = Some (e, [Nothing nat; Nothing nat; Result nat 10; Result nat 20; Result nat 10; Nothing nat; Nothing nat; Nothing nat; Nothing nat; Nothing nat; Result nat 40; Bool nat false; Nothing nat; Nothing nat; Nothing nat; Nothing nat])
  /\ forall x, e x = None.
Proof. eexists. split; [reflexivity|]. intros [|[|[|[|[|x]]]]]; reflexivity. Qed.
Print Assumptions C87_value_semantics_partial.

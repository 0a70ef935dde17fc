From Coq Require Import FinFun.
From Verif Require Import Base TraitsModel TraitsProps ErasureModel ErasureProps ShareModel.

(* ------------------------------------------------------------------ specification *)
Section Spec.
Variable ifaces : list (nat * nat).
Variables (V A R : Type).
Variable call : nat -> nat -> nat -> V -> A -> V * R.
Local Notation object := (object V).
Local Notation op := (op V A).
Definition method (i n : nat) : bool := match find (fun im => fst im =? i) ifaces with Some (_, m) => n <? m | None => false end.
Definition eset {B} (e : nat -> option B) (x : nat) (a : option B) : nat -> option B := fun y => if y =? x then a else e y.
Definition apply_method (o : object) (i n : nat) (a : A) : object * R :=
  let '(v, r) := call (o_type V o) i n (o_value V o) a in (Object V (o_type V o) v, r).

(* shared objects: a variable is a reference to the k-th object ever made; copies refer to the same object.
   None: not covered, as for C87: assigning a variable to itself, constructing from an empty variable, testing a variable that was moved from *)
Inductive sval := SEmpty | SMoved | SHolds (k : nat).
Definition smoved (a : sval) : sval := match a with SHolds _ => SMoved | b => b end.
Definition shared_step (z : list object * (nat -> option sval)) (o : op) : option ((list object * (nat -> option sval)) * out R) :=
  let '(objs, e) := z in
  match o with
  | New _ _ x => match e x with None => Some ((objs, eset e x (Some SEmpty)), Nothing R) | Some _ => None end
  | Make _ _ x obj => match e x with None => Some ((objs ++ [obj], eset e x (Some (SHolds (length objs)))), Nothing R) | Some _ => None end
  | Copy _ _ x y => match e x, e y with None, Some SEmpty => None | None, Some a => Some ((objs, eset e x (Some a)), Nothing R) | _, _ => None end
  | Move _ _ x y =>
      match e x, e y with None, Some SEmpty => None | None, Some a => Some ((objs, eset (eset e y (Some (smoved a))) x (Some a)), Nothing R) | _, _ => None end
  | Assign _ _ x y => if x =? y then None else match e x, e y with Some _, Some a => Some ((objs, eset e x (Some a)), Nothing R) | _, _ => None end
  | AssignMove _ _ x y =>
      if x =? y then None else match e x, e y with Some _, Some a => Some ((objs, eset (eset e y (Some (smoved a))) x (Some a)), Nothing R) | _, _ => None end
  | AssignValue _ _ x obj => match e x with Some _ => Some ((objs ++ [obj], eset e x (Some (SHolds (length objs)))), Nothing R) | None => None end
  | Destroy _ _ x => match e x with Some _ => Some ((objs, eset e x None), Nothing R) | None => None end
  | Test _ _ x => match e x with Some SEmpty => Some (z, Bool R false) | Some (SHolds _) => Some (z, Bool R true) | _ => None end
  | Call _ _ x i n a =>
      match e x with
      | Some (SHolds k) =>
          match nth_error objs k with
          | Some obj => if method i n then let '(obj', r) := apply_method obj i n a in Some ((upd objs k obj', e), Result R r) else None
          | None => None
          end
      | _ => None
      end
  end.
Fixpoint shared_run z (ops : list op) : option ((list object * (nat -> option sval)) * list (out R)) :=
  match ops with
  | [] => Some (z, [])
  | o :: r => match shared_step z o with None => None | Some (z1, x) => match shared_run z1 r with None => None | Some (z2, xs) => Some (z2, x :: xs) end end
  end.

(* views: the objects are the caller's (None once their life has ended); a variable is empty or refers to one of them, and a variable which was
   moved from still refers to it.  None: not covered: variables assigned to themselves, construction from an empty variable, and any access to an object whose life has ended *)
Inductive vval := VEmpty | VRefers (p : nat).
Definition alive (m : list (option object)) (p : nat) : option object := match nth_error m p with Some (Some o) => Some o | _ => None end.
Definition view_step (z : list (option object) * (nat -> option vval)) (o : vop V A) : option ((list (option object) * (nat -> option vval)) * vout V R) :=
  let '(m, e) := z in
  match o with
  | Alloc _ _ o => Some ((m ++ [Some o], e), VNothing V R)
  | Kill _ _ p => match alive m p with Some _ => Some ((upd m p None, e), VNothing V R) | None => None end
  | Peek _ _ p => match alive m p with Some o => Some (z, VSeen V R o) | None => None end
  | Poke _ _ p v => match alive m p with Some o => Some ((upd m p (Some (Object V (o_type V o) v)), e), VNothing V R) | None => None end
  | VNew _ _ x => match e x with None => Some ((m, eset e x (Some VEmpty)), VNothing V R) | Some _ => None end
  | View _ _ x p => match e x, alive m p with None, Some _ => Some ((m, eset e x (Some (VRefers p))), VNothing V R) | _, _ => None end
  | VCopy _ _ x y | VMove _ _ x y => match e x, e y with None, Some VEmpty => None | None, Some a => Some ((m, eset e x (Some a)), VNothing V R) | _, _ => None end
  | VAssign _ _ x y | VAssignMove _ _ x y => if x =? y then None else match e x, e y with Some _, Some a => Some ((m, eset e x (Some a)), VNothing V R) | _, _ => None end
  | ViewAssign _ _ x p => match e x, alive m p with Some _, Some _ => Some ((m, eset e x (Some (VRefers p))), VNothing V R) | _, _ => None end
  | VDestroy _ _ x => match e x with Some _ => Some ((m, eset e x None), VNothing V R) | None => None end
  | VTest _ _ x => match e x with Some VEmpty => Some (z, VBool V R false) | Some (VRefers _) => Some (z, VBool V R true) | None => None end
  | VCall _ _ x i n a =>
      match e x with
      | Some (VRefers p) =>
          match alive m p with
          | Some obj => if method i n then let '(obj', r) := apply_method obj i n a in Some ((upd m p (Some obj'), e), VResult V R r) else None
          | None => None
          end
      | _ => None
      end
  end.
Fixpoint view_run z (ops : list (vop V A)) : option ((list (option object) * (nat -> option vval)) * list (vout V R)) :=
  match ops with
  | [] => Some (z, [])
  | o :: r => match view_step z o with None => None | Some (z1, x) => match view_run z1 r with None => None | Some (z2, xs) => Some (z2, x :: xs) end end
  end.
End Spec.

(* ------------------------------------------------------------------ virtual tables *)
Section Tables.
Variable ifaces : list (nat * nat).
Hypothesis Hdup : NoDup (map fst ifaces).
Hypothesis Hpos : 0 < list_sum (map snd ifaces).
Hypothesis Hmax : (Z.of_nat (list_sum (map snd ifaces)) < 2 ^ 15)%Z.
Local Notation total := (list_sum (map snd ifaces)).
Local Notation table := (list (cell (list (option entry)))).
(* None: no object yet; Some t: the table of an object of type t *)
Definition tab_ok (vts : table) (w : wrapper) (st : option nat) : Prop :=
  match st with None => w_size w = Some 0 /\ (w_vtable w = None \/ exists l, w_vtable w = Some l /\ load vts l = Ok []) | Some t => table_ok ifaces vts w t end.
Definition TInv (vts : table) (vars : nat -> option wrapper) (te : nat -> option (option nat)) : Prop :=
  PInv vts (owner w_vtable vars) /\ forall x, match vars x, te x with None, None => True | Some w, Some st => tab_ok vts w st | _, _ => False end.
Lemma tab_frame vts vts' w st : tab_ok vts w st -> (forall l, w_vtable w = Some l -> load vts' l = load vts l) -> tab_ok vts' w st.
Proof.
  intros H F. destruct st as [t|]; cbn in *.
  - destruct H as (l & vt & H1 & H2 & H3). exists l, vt. split; [exact H1|]. rewrite (F l H1). now split.
  - destruct H as (H1 & H3). split; auto. destruct H3 as [H3|(l & H3 & H4)]; [now left|right]. exists l. rewrite (F l H3). now split.
Qed.
Lemma eset_same {B} (e : nat -> option B) x a : eset e x a x = a. Proof. unfold eset. now rewrite Nat.eqb_refl. Qed.
Lemma eset_other {B} (e : nat -> option B) x a z : z <> x -> eset e x a z = e z. Proof. intros N. unfold eset. destruct (Nat.eqb_spec z x); [contradiction|reflexivity]. Qed.
Lemma t_set vts vars te x vts' w st : TInv vts vars te -> PStep vts (owner w_vtable vars) x vts' (match w with Some v => w_vtable v | None => None end) ->
  match w, st with None, None => True | Some v, Some b => tab_ok vts' v b | _, _ => False end -> TInv vts' (set vars x w) (eset te x st).
Proof.
  intros [HP HT] [Iv Fv] Hw. split.
  - apply (PInv_ext vts' (setf (owner w_vtable vars) x (match w with Some v => w_vtable v | None => None end))); [|exact Iv]. intros z. symmetry. apply owner_set.
  - intros z. destruct (Nat.eq_dec z x) as [->|N]; [rewrite set_same, eset_same; exact Hw|]. rewrite set_other, eset_other by auto.
    specialize (HT z). destruct (vars z) as [v|] eqn:Ez, (te z) as [b|]; auto. eapply tab_frame; [exact HT|]. intros l Hl. apply (Fv z l N). unfold owner. now rewrite Ez.
Qed.
(* the storage of a variable plays no role *)
Lemma t_ptr vts vars te y wy p : vars y = Some wy -> TInv vts vars te -> TInv vts (set vars y (Some (with_ptr wy p))) te.
Proof.
  intros Hy [HP HT]. split.
  - eapply PInv_ext; [|exact HP]. intros z. cbv beta. rewrite owner_set. unfold setf. destruct (Nat.eqb_spec z y) as [->|]; [|reflexivity]. unfold owner. now rewrite Hy.
  - intros z. destruct (Nat.eq_dec z y) as [->|N]; [|rewrite set_other by auto; apply HT]. rewrite set_same. specialize (HT y). rewrite Hy in HT. destruct (te y) as [[t|]|]; auto.
Qed.
Lemma t_fresh vts vars te x : TInv vts vars te -> vars x = None -> PStep vts (owner w_vtable vars) x vts None.
Proof. intros [HP _] Hx. apply dead_step; [exact HP|]. unfold owner. now rewrite Hx. Qed.
Lemma t_release vts vars te x w : TInv vts vars te -> vars x = Some w -> exists vts', release_vtable vts w = Ok vts' /\ PStep vts (owner w_vtable vars) x vts' None.
Proof. intros [HP _] Hx. destruct (P_release vts _ x HP) as (h & E & S). exists h. split; [|exact S]. unfold owner in E. rewrite Hx in E. exact E. Qed.
Lemma t_init vts vars te x w t : TInv vts vars te -> owner w_vtable vars x = w_vtable w -> exists vts' w', init_table ifaces vts w t = Ok (vts', w') /\
  PStep vts (owner w_vtable vars) x vts' (w_vtable w') /\ tab_ok vts' w' (Some t) /\ w_ptr w' = w_ptr w /\ w_del w' = w_del w /\ w_copy w' = w_copy w.
Proof.
  intros [HP _] Ho. unfold init_table. rewrite drop_vtable, <- Ho. destruct (P_release vts _ x HP) as (h1 & E1 & S1). rewrite E1. cbn [bind].
  destruct (vtable_init_ok ifaces unit unit unit (fun _ _ _ _ _ => (tt, tt)) Hdup Hpos Hmax t (w_offsets w)) as (vt & off' & E & L & D). rewrite E. cbn [bind alloc]. eexists. eexists. split; [reflexivity|]. cbn [w_vtable w_ptr w_del w_copy].
  split; [|split; [|auto]].
  - eapply P_trans; [exact S1|]. apply P_alloc; [apply S1|apply setf_same].
  - exists (length h1), vt. cbn [w_vtable w_size w_offsets]. rewrite load_new. auto.
Qed.
Lemma t_copy vts vars te x wy t : TInv vts vars te -> vars x = None -> tab_ok vts wy (Some t) -> exists vts' l, handler_copy vts wy = Ok (vts', Some l, Some total) /\
  PStep vts (owner w_vtable vars) x vts' (Some l) /\ forall p d c, tab_ok vts' (Wrapper (Some l) (Some total) (w_offsets wy) p d c) (Some t).
Proof.
  intros [HP _] Hx (l & vt & H1 & H2 & H3 & H4 & H5). unfold handler_copy. rewrite H1, H3, <- H4. rewrite (vtable_copy_ok _ l vt H2 _ (fun _ => eq_refl)). cbn [bind].
  eexists. eexists. split; [rewrite H4; reflexivity|]. split.
  - apply P_alloc; [exact HP|]. unfold owner. now rewrite Hx.
  - intros p d c. exists (length vts), vt. cbn [w_vtable w_size w_offsets]. rewrite load_new. auto.
Qed.
Lemma t_assign vts vars te x y wx wy st : x <> y -> TInv vts vars te -> vars x = Some wx -> vars y = Some wy -> te y = Some st -> exists vts' l n, handler_assign vts x y wx wy = Ok (vts', l, n) /\
  PStep vts (owner w_vtable vars) x vts' (Some l) /\ forall p d c, tab_ok vts' (Wrapper (Some l) (Some n) (w_offsets wy) p d c) st.
Proof.
  intros Nxy HI Hx Hy Ey. destruct (t_release vts vars te x wx HI Hx) as (h1 & E1 & S1). unfold handler_assign. rewrite E1. cbn [bind]. destruct (Nat.eqb_spec x y); [contradiction|].
  assert (Hw : tab_ok h1 wy st).
  { destruct HI as [_ HT]. specialize (HT y). rewrite Hy, Ey in HT. eapply tab_frame; [exact HT|]. intros l Hl. apply (proj2 S1 y l); [auto|]. unfold owner. now rewrite Hy. }
  assert (P : forall t, PStep vts (owner w_vtable vars) x (h1 ++ [Live t]) (Some (length h1))).
  { intros t. eapply P_trans; [exact S1|]. apply P_alloc; [apply S1|apply setf_same]. }
  destruct st as [t|]; cbn in Hw.
  - destruct Hw as (l & vt & H1 & H2 & H3 & H4 & H5). rewrite H3, <- H4. rewrite (vtable_copy_ok h1 l vt H2) by auto. eexists. eexists. eexists. split; [reflexivity|]. split; [apply P|].
    intros p d c. exists (length h1), vt. cbn [w_vtable w_size w_offsets]. rewrite load_new, H4. auto.
  - destruct Hw as (H1 & _). rewrite H1, vtable_copy_nil. eexists. eexists. eexists. split; [reflexivity|]. split; [apply P|]. intros p d c. split; [reflexivity|]. right. exists (length h1). split; [reflexivity|apply load_new].
Qed.
Lemma t_empty vts vars te : TInv vts vars te -> (forall x, vars x = None) -> forall c, In c vts -> c = Freed.
Proof.
  intros [(_ & _ & K) _] Hd [a|] Hc; auto. exfalso. apply In_nth_error in Hc as [p Hp]. destruct (K p a) as [x Hx]; [unfold load, nth_res; now rewrite Hp|]. unfold owner in Hx. rewrite Hd in Hx. discriminate.
Qed.
End Tables.

(* ------------------------------------------------------------------ objects with a number of owners *)
Section Counted.
Context {V : Type}.
Local Notation B := (object V).
Implicit Types (h : list (cell (B * nat))) (objs : list B) (own : option nat -> option nat).
Definition kdec (a b : option nat) : {a = b} + {a <> b}.
Proof. decide equality. apply Nat.eq_dec. Defined.
Definition setk own k q : option nat -> option nat := fun z => if kdec z k then q else own z.
Lemma setk_same own k q : setk own k q k = q. Proof. unfold setk. destruct (kdec k k); congruence. Qed.
Lemma setk_other own k q z : z <> k -> setk own k q z = own z. Proof. intros N. unfold setk. destruct (kdec z k); congruence. Qed.
Definition owners own p (L : list (option nat)) : Prop := NoDup L /\ forall z, In z L <-> own z = Some p.
Definition counted (o : B) (L : list (option nat)) : cell (B * nat) := match L with [] => Freed | _ => Live (o, length L) end.
Definition OInv h own objs : Prop :=
  length h = length objs /\ (forall z p, own z = Some p -> p < length h) /\
  (forall p o, nth_error objs p = Some o -> exists L, owners own p L /\ nth_error h p = Some (counted o L)).
Lemma OInv_ext h own own' objs : (forall z, own z = own' z) -> OInv h own objs -> OInv h own' objs.
Proof.
  intros E (H1 & H2 & H3). split; [exact H1|]. split; [intros z p Hz; rewrite <- E in Hz; eauto|].
  intros p o Hp. destruct (H3 p o Hp) as (L & [HN HL] & HC). exists L. split; [|exact HC]. split; [exact HN|]. intros z. rewrite <- E. apply HL.
Qed.
Lemma counted_live h own objs z p : OInv h own objs -> own z = Some p -> exists o n, nth_error objs p = Some o /\ nth_error h p = Some (Live (o, S n)) /\ load h p = Ok (o, S n).
Proof.
  intros (H1 & H2 & H3) Hz. assert (Hp := H2 z p Hz). rewrite H1 in Hp. destruct (nth_error objs p) as [o|] eqn:Eo; [|apply nth_error_None in Eo; lia].
  destruct (H3 p o Eo) as (L & [HN HL] & HC). apply HL in Hz. destruct L as [|a L]; [contradiction|]. exists o, (length L). split; [reflexivity|]. split; [exact HC|]. unfold load, nth_res. now rewrite HC.
Qed.
Lemma O_share h own objs k q : OInv h own objs -> own k = None -> (q = None \/ exists y, own y = q) -> exists h', share V h q = Ok h' /\ OInv h' (setk own k q) objs.
Proof.
  intros HI Hk Hq. destruct q as [p|]; cbn [share].
  - destruct Hq as [Hq|[y Hy]]; [discriminate|]. destruct (counted_live h own objs y p HI Hy) as (o & n & Eo & Eh & El). rewrite El. cbn [bind fst snd]. unfold store. rewrite El. cbn [bind].
    eexists. split; [reflexivity|]. destruct HI as (H1 & H2 & H3). split; [now rewrite upd_length|]. split.
    + intros z r Hz. rewrite upd_length. unfold setk in Hz. destruct (kdec z k); [injection Hz as <-|]; eauto.
    + intros r u Hr. destruct (H3 r u Hr) as (L & [HN HL] & HC). destruct (Nat.eq_dec r p) as [->|N].
      * assert (u = o) by congruence. subst u. exists (k :: L). split; [split|].
        -- constructor; [|exact HN]. intros K. apply HL in K. congruence.
        -- intros z. cbn [In]. unfold setk. destruct (kdec z k) as [->|Nz]; [intuition|]. rewrite HL. intuition congruence.
        -- rewrite nth_error_upd_same by (eapply H2; eauto). rewrite Eh in HC. destruct L as [|a L]; cbn in HC; [discriminate|]. cbn. congruence.
      * exists L. split; [split; [exact HN|]|rewrite nth_error_upd_other by auto; exact HC]. intros z. unfold setk. destruct (kdec z k) as [->|Nz]; [|apply HL].
        rewrite HL, Hk. intuition congruence.
  - exists h. split; [reflexivity|]. eapply OInv_ext; [|exact HI]. intros z. unfold setk. destruct (kdec z k) as [->|]; auto.
Qed.
Lemma O_unshare h own objs k : OInv h own objs -> exists h', unshare V h (own k) = Ok h' /\ OInv h' (setk own k None) objs.
Proof.
  intros HI. destruct (own k) as [p|] eqn:Ek; cbn [unshare].
  - destruct (counted_live h own objs k p HI Ek) as (o & n & Eo & Eh & El). rewrite El. cbn [bind fst snd]. destruct HI as (H1 & H2 & H3). assert (Hp := H2 k p Ek).
    assert (G : forall c, (forall L, owners (setk own k None) p L -> length L = n -> counted o L = c) -> OInv (upd h p c) (setk own k None) objs).
    { intros c Hc. split; [now rewrite upd_length|]. split.
      - intros z r Hz. rewrite upd_length. unfold setk in Hz. destruct (kdec z k); [discriminate|eauto].
      - intros r u Hr. destruct (H3 r u Hr) as (L & [HN HL] & HC). destruct (Nat.eq_dec r p) as [->|N].
        + assert (u = o) by congruence. subst u. exists (remove kdec k L). assert (OW : owners (setk own k None) p (remove kdec k L)).
          { split.
            - clear -HN. induction L as [|a L IH]; cbn; [constructor|]. inversion HN; subst. destruct (kdec k a); [auto|]. constructor; [|auto]. intros K. apply in_remove in K. tauto.
            - intros z. unfold setk. destruct (kdec z k) as [->|Nz].
              + split; [|discriminate]. intros K. exfalso. revert K. apply remove_In.
              + rewrite <- HL. split; [intros K; apply in_remove in K; tauto|]. intros K. apply in_in_remove; auto. }
          split; [exact OW|]. rewrite nth_error_upd_same by auto. f_equal. symmetry. apply Hc; [exact OW|].
          assert (In k L) by (now apply HL). rewrite Eh in HC. assert (HL1 : length L = S n) by (destruct L; cbn in HC; [discriminate|]; cbn; congruence).
          clear -HN H HL1. revert n HL1. induction L as [|a L IH]; intros n HL1; [contradiction|]. inversion HN; subst. cbn [remove]. cbn in HL1. injection HL1 as HL1. destruct (kdec k a) as [->|Na].
          * assert (E : remove kdec a L = L) by (now apply notin_remove). now rewrite E.
          * destruct H as [->|H]; [contradiction|]. destruct L as [|b L]; [contradiction|]. cbn [length]. destruct n; [discriminate|]. f_equal. apply IH; auto.
        + exists L. split; [split; [exact HN|]|rewrite nth_error_upd_other by auto; exact HC]. intros z. unfold setk. destruct (kdec z k) as [->|Nz]; [|apply HL]. rewrite HL, Ek. intuition congruence. }
    destruct n as [|n].
    + unfold free. rewrite El. cbn [bind]. eexists. split; [reflexivity|]. apply G. intros [|a L] _ HL; [reflexivity|discriminate].
    + unfold store. rewrite El. cbn [bind]. eexists. split; [reflexivity|]. apply G. intros [|a L] _ HL; [discriminate|]. cbn. cbn in HL. congruence.
  - exists h. split; [reflexivity|]. eapply OInv_ext; [|exact HI]. intros z. unfold setk. destruct (kdec z k) as [->|]; auto.
Qed.
Lemma O_swap h own objs j k : OInv h own objs -> OInv h (setk (setk own k (own j)) j (own k)) objs.
Proof.
  intros (H1 & H2 & H3). set (own' := setk (setk own k (own j)) j (own k)). set (f := fun z => if kdec z j then k else if kdec z k then j else z).
  assert (F : forall z, own' z = own (f z)).
  { intros z. unfold own', setk, f. destruct (kdec z j) as [->|]; [reflexivity|]. destruct (kdec z k); reflexivity. }
  assert (FF : forall z, f (f z) = z).
  { intros z. unfold f. destruct (kdec z j) as [->|Nj]; [destruct (kdec k j); [congruence|]; destruct (kdec k k); congruence|]. destruct (kdec z k) as [->|Nk]; [destruct (kdec j j); congruence|].
    destruct (kdec z j); [congruence|]. destruct (kdec z k); congruence. }
  split; [exact H1|]. split; [intros z p Hz; rewrite F in Hz; eauto|]. intros p o Hp. destruct (H3 p o Hp) as (L & [HN HL] & HC). exists (map f L). split; [split|].
  - apply FinFun.Injective_map_NoDup; [|exact HN]. intros a b E. rewrite <- (FF a), <- (FF b). now rewrite E.
  - intros z. rewrite F, <- HL. rewrite in_map_iff. split; [intros (w & <- & Hw); now rewrite FF|]. intros K. exists (f z). split; [apply FF|exact K].
  - rewrite HC. f_equal. destruct L; [reflexivity|]. cbn. now rewrite map_length.
Qed.
Lemma O_alloc h own objs k o : OInv h own objs -> own k = None -> OInv (h ++ [Live (o, 1)]) (setk own k (Some (length h))) (objs ++ [o]).
Proof.
  intros (H1 & H2 & H3) Hk. split; [rewrite !app_length; cbn; lia|]. split.
  - intros z p Hz. rewrite app_length. cbn. unfold setk in Hz. destruct (kdec z k); [injection Hz as <-; lia|]. apply H2 in Hz. lia.
  - intros p u Hp. destruct (lt_dec p (length objs)) as [Lp|Lp].
    + rewrite nth_error_app1 in Hp by auto. destruct (H3 p u Hp) as (L & [HN HL] & HC). exists L. split; [split; [exact HN|]|rewrite nth_error_app1 by lia; exact HC].
      intros z. unfold setk. destruct (kdec z k) as [->|Nz]; [|apply HL]. rewrite HL, Hk. split; intros K; [discriminate|]. injection K as K. lia.
    + rewrite nth_error_app2 in Hp by lia. destruct (p - length objs) as [|r] eqn:Er; [|destruct r; discriminate]. cbn in Hp. injection Hp as <-. assert (p = length h) by lia. subst p.
      exists [k]. split; [split|].
      * constructor; [intros []|constructor].
      * intros z. cbn. unfold setk. destruct (kdec z k) as [->|Nz]; [intuition|]. split; [intuition congruence|]. intros K. apply H2 in K. lia.
      * rewrite nth_error_app2 by lia. now rewrite Nat.sub_diag.
Qed.
Lemma O_store h own objs p o n o' : OInv h own objs -> nth_error h p = Some (Live (o, S n)) -> OInv (upd h p (Live (o', S n))) own (upd objs p o').
Proof.
  intros (H1 & H2 & H3) Eh. assert (Hp : p < length h) by (apply nth_error_Some; congruence). split; [now rewrite !upd_length|]. split; [intros z r Hz; rewrite upd_length; eauto|].
  intros r u Hr. destruct (Nat.eq_dec r p) as [->|N].
  - rewrite nth_error_upd_same in Hr by lia. injection Hr as <-. destruct (nth_error objs p) as [u|] eqn:Eu; [|apply nth_error_None in Eu; lia].
    destruct (H3 p u Eu) as (L & HL & HC). exists L. split; [exact HL|]. rewrite nth_error_upd_same by auto. rewrite Eh in HC. destruct L; cbn in HC |- *; [discriminate|]. congruence.
  - rewrite nth_error_upd_other in Hr by auto. destruct (H3 r u Hr) as (L & HL & HC). exists L. split; [exact HL|]. rewrite nth_error_upd_other by auto. exact HC.
Qed.
End Counted.

(* ------------------------------------------------------------------ shared objects *)
Section Shared.
Variable ifaces : list (nat * nat).
Variables (V A R : Type).
Variable call : nat -> nat -> nat -> V -> A -> V * R.
Hypothesis Hdup : NoDup (map fst ifaces).
Hypothesis Hpos : 0 < list_sum (map snd ifaces).
Hypothesis Hmax : (Z.of_nat (list_sum (map snd ifaces)) < 2 ^ 15)%Z.
Local Notation object := (object V).
Local Notation op := (op V A).
Local Notation total := (list_sum (map snd ifaces)).

Lemma method_in i n : method ifaces i n = true -> exists m, In (i, m) ifaces /\ n < m.
Proof.
  unfold method. destruct (find _ ifaces) as [[j m]|] eqn:Ef; [|discriminate]. intros H. apply Nat.ltb_lt in H. apply find_some in Ef as [Hin Hij]. cbn in Hij. apply Nat.eqb_eq in Hij. subst j. eauto.
Qed.
Lemma invoke_ok vts w o i n a : tab_ok ifaces vts w (Some (o_type V o)) -> method ifaces i n = true -> invoke_on V A R call vts w i n a o = Ok (apply_method V A R call o i n a).
Proof.
  intros (l & vt & H1 & H2 & H3 & H4 & H5) Hm. destruct (method_in i n Hm) as (m & Hi & Hn). unfold invoke_on. rewrite H1, H2. cbn [bind]. rewrite (H5 i m n Hi Hn). cbn [bind e_type e_iface e_n].
  rewrite Nat.eqb_refl. unfold apply_method. destruct (call _ _ _ _ _). reflexivity.
Qed.
Lemma apply_type o i n a : o_type V (fst (apply_method V A R call o i n a)) = o_type V o.
Proof. unfold apply_method. destruct (call _ _ _ _ _). reflexivity. Qed.

Definition lown (vars : nat -> option wrapper) (k : option nat) : option nat := match k with Some x => owner w_ptr vars x | None => None end.
Definition agree (objs : list object) (w : option wrapper) (a : option sval) (st : option (option nat)) : Prop :=
  match w, a, st with
  | None, None, None => True
  | Some w, Some SEmpty, Some None => w_ptr w = None
  | Some w, Some SMoved, Some (Some t) => w_ptr w = None
  | Some w, Some (SHolds k), Some (Some t) => w_ptr w = Some k /\ exists o, nth_error objs k = Some o /\ o_type V o = t
  | _, _, _ => False
  end.
Definition SRel (s : sstate V) (z : list object * (nat -> option sval)) : Prop :=
  exists te, TInv ifaces (s_vtables V s) (s_vars V s) te /\ OInv (s_objects V s) (lown (s_vars V s)) (fst z) /\ forall x, agree (fst z) (s_vars V s x) (snd z x) (te x).
Definition same_types (objs objs' : list object) : Prop := forall k o, nth_error objs k = Some o -> exists o', nth_error objs' k = Some o' /\ o_type V o' = o_type V o.
Lemma agree_types objs objs' w a st : same_types objs objs' -> agree objs w a st -> agree objs' w a st.
Proof.
  intros HT H. destruct w, a as [[| |k]|], st as [[t|]|]; cbn in *; auto. destruct H as (H1 & o & H2 & H3). split; [exact H1|]. destruct (HT k o H2) as (o' & K1 & K2). exists o'. split; [exact K1|congruence].
Qed.
Lemma same_refl objs : same_types objs objs.
Proof. intros k o H. eauto. Qed.
Lemma same_app objs o : same_types objs (objs ++ [o]).
Proof. intros k u H. exists u. split; [|reflexivity]. rewrite nth_error_app1; [exact H|]. apply nth_error_Some. congruence. Qed.
Lemma lown_set vars x w k : lown (set vars x w) k = setk (lown vars) (Some x) (match w with Some v => w_ptr v | None => None end) k.
Proof.
  unfold lown, setk. destruct k as [z|]; [|destruct (kdec None (Some x)); [discriminate|reflexivity]]. rewrite owner_set. unfold setf.
  destruct (Nat.eqb_spec z x) as [->|N]; destruct (kdec _ _); congruence.
Qed.
Lemma s_set s objs e te x vts h objs' w a st :
  TInv ifaces (s_vtables V s) (s_vars V s) te -> (forall x, agree objs (s_vars V s x) (e x) (te x)) ->
  PStep (s_vtables V s) (owner w_vtable (s_vars V s)) x vts (match w with Some v => w_vtable v | None => None end) ->
  match w, st with None, None => True | Some v, Some b => tab_ok ifaces vts v b | _, _ => False end ->
  OInv h (setk (lown (s_vars V s)) (Some x) (match w with Some v => w_ptr v | None => None end)) objs' -> same_types objs objs' -> agree objs' w a st ->
  SRel (SState V h vts (set (s_vars V s) x w)) (objs', eset e x a).
Proof.
  intros HT HA HP Hw HO HS Ha. exists (eset te x st). cbn [s_vtables s_vars s_objects fst snd]. split; [|split].
  - eapply t_set; eauto.
  - eapply OInv_ext; [|exact HO]. intros z. symmetry. apply lown_set.
  - intros z. destruct (Nat.eq_dec z x) as [->|N]; [now rewrite set_same, !eset_same|]. rewrite set_other, !eset_other by auto. eapply agree_types; eauto.
Qed.
Lemma sinit_rel : SRel (s_init V) ([], fun _ => None).
Proof.
  exists (fun _ => None). cbn. split; [|split].
  - split; [|intros x; exact I]. split; [|split]; [intros; discriminate|intros; discriminate|]. intros p a H. destruct p; discriminate.
  - split; [reflexivity|]. split; [intros [z|] p Hz; discriminate|]. intros [|p] o Hp; discriminate.
  - intros x. exact I.
Qed.
Lemma s_step_ok s z o z' r : SRel s z -> shared_step ifaces V A R call z o = Some (z', r) -> exists s', s_step ifaces V A R call s o = Ok (s', r) /\ SRel s' z'.
Proof.
  destruct z as [objs e]. intros (te & HT & HO & HA) H. cbn [fst snd] in HO, HA.
  assert (AV : forall x, e x = None -> s_vars V s x = None).
  { intros x E. specialize (HA x). rewrite E in HA. destruct (s_vars V s x); [|reflexivity]. destruct (te x); contradiction. }
  assert (AL : forall x a, e x = Some a -> exists w st, s_vars V s x = Some w /\ te x = Some st /\ agree objs (Some w) (Some a) (Some st) /\ tab_ok ifaces (s_vtables V s) w st).
  { intros x a E. specialize (HA x). pose proof (proj2 HT x) as HB. rewrite E in HA. destruct (s_vars V s x) as [w|]; [|contradiction]. destruct (te x) as [st|]; [|destruct a; contradiction]. eauto 8. }
  assert (OX : forall x w, s_vars V s x = Some w -> lown (s_vars V s) (Some x) = w_ptr w) by (intros x w E; cbn; unfold owner; now rewrite E).
  assert (OD : forall x, s_vars V s x = None -> lown (s_vars V s) (Some x) = None) by (intros x E; cbn; unfold owner; now rewrite E).
  assert (VX : forall x, s_vars V s x = None -> owner w_vtable (s_vars V s) x = None) by (intros x E; unfold owner; now rewrite E).
  assert (KO : forall x, s_vars V s x = None -> OInv (s_objects V s) (setk (lown (s_vars V s)) (Some x) None) objs).
  { intros x E. eapply OInv_ext; [|exact HO]. intros k. unfold setk. destruct (kdec k (Some x)) as [->|]; [now apply OD|reflexivity]. }
  destruct o as [x|x obj|x y|x y|x y|x y|x obj|x|x|x i n arg]; cbn [shared_step] in H; cbn [s_step]; unfold s_fresh, s_live.
  - (* New *) destruct (e x) eqn:Ex; [discriminate|]. injection H as <- <-. rewrite (AV x Ex). cbn [bind]. eexists. split; [reflexivity|].
    eapply (s_set s objs e te x _ _ objs (Some no_handler) (Some SEmpty) (Some None)); eauto using same_refl; [apply (t_fresh ifaces _ _ te); auto|cbn; auto|reflexivity].
  - (* Make *) destruct (e x) eqn:Ex; [discriminate|]. injection H as <- <-. assert (Vx := AV x Ex). rewrite Vx. cbn [bind alloc].
    destruct (t_init ifaces Hdup Hpos Hmax _ _ te x (Wrapper None (Some 0) [] (Some (length (s_objects V s))) None None) (o_type V obj) HT) as (vts & w & E & S & T & P1 & _); [cbn; auto|].
    rewrite E. cbn [bind]. eexists. split; [reflexivity|]. cbn [w_ptr] in P1. rewrite (proj1 HO) in P1.
    eapply (s_set s objs e te x _ _ _ (Some w) _ (Some (Some (o_type V obj)))); eauto using same_app.
    + rewrite P1, <- (proj1 HO). now apply O_alloc; [|apply OD].
    + cbn. split; [exact P1|]. exists obj. split; [|reflexivity]. rewrite nth_error_app2 by lia. now rewrite Nat.sub_diag.
  - (* Copy *) destruct (e x) eqn:Ex; [discriminate|]. assert (Vx := AV x Ex). destruct (e y) as [a|] eqn:Ey; [|discriminate]. destruct (AL y a Ey) as (wy & st & Vy & Ty & Ga & Gt).
    assert (Na : a <> SEmpty) by (intros ->; discriminate). assert (H' : ((objs, eset e x (Some a)), Nothing R) = (z', r)) by (destruct a; congruence). injection H' as <- <-. clear H.
    rewrite Vx, Vy. cbn [bind]. assert (exists t, st = Some t) as [t ->] by (destruct st; [eauto|destruct a; cbn in Ga; contradiction]).
    destruct (t_copy ifaces _ _ te x wy t HT Vx Gt) as (vts & l & E & S & T). rewrite E. cbn [bind].
    destruct (O_share _ _ objs (Some x) (w_ptr wy) HO (OD x Vx)) as (h & E2 & S2); [right; exists (Some y); auto|]. rewrite E2. cbn [bind]. eexists. split; [reflexivity|].
    eapply (s_set s objs e te x _ _ objs (Some _) _ (Some (Some t))); eauto using same_refl.
  - (* Move *) destruct (e x) eqn:Ex; [discriminate|]. assert (Vx := AV x Ex). destruct (e y) as [a|] eqn:Ey; [|discriminate]. destruct (AL y a Ey) as (wy & st & Vy & Ty & Ga & Gt).
    assert (Na : a <> SEmpty) by (intros ->; discriminate). assert (H' : ((objs, eset (eset e y (Some (smoved a))) x (Some a)), Nothing R) = (z', r)) by (destruct a; congruence). injection H' as <- <-. clear H.
    assert (Nxy : x <> y) by congruence. rewrite Vx, Vy. cbn [bind]. assert (exists t, st = Some t) as [t ->] by (destruct st; [eauto|destruct a; cbn in Ga; contradiction]).
    destruct (t_copy ifaces _ _ te x wy t HT Vx Gt) as (vts & l & E & S & T). rewrite E. cbn [bind]. eexists. split; [reflexivity|].
    exists (eset te x (Some (Some t))). cbn [s_vtables s_vars s_objects fst snd]. split; [|split].
    + eapply t_set; [apply t_ptr; eauto| |cbn; apply T]. destruct S as [I F]. split.
      * eapply PInv_ext; [|exact I]. intros z. unfold setf. cbn [w_vtable]. destruct (z =? x); [reflexivity|]. rewrite owner_set. unfold setf. cbn. destruct (Nat.eqb_spec z y) as [->|]; [|reflexivity]. unfold owner. now rewrite Vy.
      * intros z p Nz Hz. apply (F z p Nz). rewrite <- Hz. rewrite owner_set. unfold setf. cbn. destruct (Nat.eqb_spec z y) as [->|]; [|reflexivity]. unfold owner. now rewrite Vy.
    + eapply OInv_ext; [|exact (O_swap _ _ _ (Some x) (Some y) HO)]. intros k. rewrite lown_set. cbn [w_ptr]. unfold setk at 1 3. destruct (kdec k (Some x)); [now apply OX|]. rewrite lown_set. cbn [w_ptr with_ptr]. unfold setk. destruct (kdec k (Some y)); [now apply OD|reflexivity].
    + intros z. destruct (Nat.eq_dec z x) as [->|Nx]; [rewrite set_same, !eset_same; exact Ga|]. rewrite set_other, (eset_other _ x), (eset_other te x) by auto. destruct (Nat.eq_dec z y) as [->|Ny].
      * rewrite set_same, eset_same, Ty. destruct a; cbn in *; auto.
      * rewrite set_other, eset_other by auto. apply HA.
  - (* Assign *) destruct (Nat.eqb_spec x y) as [|Nxy]; [discriminate|]. destruct (e x) as [b|] eqn:Ex; [|discriminate]. destruct (e y) as [a|] eqn:Ey; [|discriminate]. injection H as <- <-.
    destruct (AL x b Ex) as (wx & sx & Vx & Tx & Gb & Gs). destruct (AL y a Ey) as (wy & st & Vy & Ty & Ga & Gt). rewrite Vx, Vy. cbn [bind].
    destruct (t_assign ifaces _ _ te x y wx wy st Nxy HT Vx Vy Ty) as (vts & l & n & E & S & T). rewrite E. cbn [bind].
    destruct (O_share _ _ objs None (w_ptr wy) HO eq_refl) as (h & E2 & S2); [right; exists (Some y); auto|]. rewrite E2. cbn [bind].
    pose proof (O_swap _ _ _ (Some x) None S2) as S3. destruct (O_unshare _ _ _ None S3) as (h' & E4 & S4).
    assert (EW : setk (setk (setk (lown (s_vars V s)) None (w_ptr wy)) None (setk (lown (s_vars V s)) None (w_ptr wy) (Some x))) (Some x) (setk (lown (s_vars V s)) None (w_ptr wy) None) None = w_ptr wx).
    { rewrite setk_other by discriminate. rewrite setk_same. rewrite setk_other by discriminate. now apply OX. }
    rewrite EW in E4. rewrite E4. cbn [bind]. eexists. split; [reflexivity|].
    eapply (s_set s objs e te x _ _ objs (Some _) _ (Some st)); eauto using same_refl.
    eapply OInv_ext; [|exact S4]. intros k. cbn [w_ptr]. unfold setk. destruct (kdec k None) as [->|Nk]; [destruct (kdec None (Some x)); [discriminate|reflexivity]|].
    destruct (kdec k (Some x)); [destruct (kdec None None); congruence|]. reflexivity.
  - (* AssignMove *) destruct (Nat.eqb_spec x y) as [|Nxy]; [discriminate|]. destruct (e x) as [b|] eqn:Ex; [|discriminate]. destruct (e y) as [a|] eqn:Ey; [|discriminate]. injection H as <- <-.
    destruct (AL x b Ex) as (wx & sx & Vx & Tx & Gb & Gs). destruct (AL y a Ey) as (wy & st & Vy & Ty & Ga & Gt). rewrite Vx, Vy. cbn [bind].
    destruct (t_assign ifaces _ _ te x y wx wy st Nxy HT Vx Vy Ty) as (vts & l & n & E & S & T). rewrite E. cbn [bind].
    destruct (O_unshare _ _ _ (Some x) HO) as (h' & E4 & S4). rewrite (OX x wx Vx) in E4. rewrite E4. cbn [bind]. eexists. split; [reflexivity|].
    exists (eset te x (Some st)). cbn [s_vtables s_vars s_objects fst snd]. split; [|split].
    + eapply t_set; [apply t_ptr; eauto| |cbn; apply T]. destruct S as [I F]. split.
      * eapply PInv_ext; [|exact I]. intros z. unfold setf. cbn [w_vtable]. destruct (z =? x); [reflexivity|]. rewrite owner_set. unfold setf. cbn. destruct (Nat.eqb_spec z y) as [->|]; [|reflexivity]. unfold owner. now rewrite Vy.
      * intros z p Nz Hz. apply (F z p Nz). rewrite <- Hz. rewrite owner_set. unfold setf. cbn. destruct (Nat.eqb_spec z y) as [->|]; [|reflexivity]. unfold owner. now rewrite Vy.
    + eapply OInv_ext; [|exact (O_swap _ _ _ (Some x) (Some y) S4)]. intros k. rewrite lown_set. cbn [w_ptr]. rewrite setk_same, (setk_other _ (Some x) None (Some y)) by congruence.
      unfold setk at 1 4. destruct (kdec k (Some x)); [now apply OX|]. rewrite lown_set. cbn [w_ptr with_ptr]. unfold setk. destruct (kdec k (Some y)); [reflexivity|]. destruct (kdec k (Some x)); [contradiction|reflexivity].
    + intros z. destruct (Nat.eq_dec z x) as [->|Nx]; [rewrite set_same, !eset_same; destruct a, st; cbn in *; auto|]. rewrite set_other, (eset_other _ x), (eset_other te x) by auto. destruct (Nat.eq_dec z y) as [->|Ny].
      * rewrite set_same, eset_same, Ty. destruct a, st; cbn in *; auto.
      * rewrite set_other, eset_other by auto. apply HA.
  - (* AssignValue *) destruct (e x) as [b|] eqn:Ex; [|discriminate]. injection H as <- <-. destruct (AL x b Ex) as (wx & sx & Vx & Tx & Gb & Gs). rewrite Vx. cbn [bind alloc].
    pose proof (O_swap _ _ _ (Some x) None (O_alloc _ _ _ None obj HO eq_refl)) as S3. destruct (O_unshare _ _ _ None S3) as (h' & E4 & S4).
    rewrite setk_other in E4 by discriminate. rewrite setk_same, setk_other in E4 by discriminate. rewrite (OX x wx Vx) in E4. rewrite E4. cbn [bind].
    destruct (t_init ifaces Hdup Hpos Hmax _ _ te x (Wrapper (w_vtable wx) (w_size wx) (w_offsets wx) (Some (length (s_objects V s))) None None) (o_type V obj) HT) as (vts & w & E & S & T & P1 & _); [cbn; unfold owner; now rewrite Vx|].
    rewrite E. cbn [bind]. eexists. split; [reflexivity|]. cbn [w_ptr] in P1.
    eapply (s_set s objs e te x _ _ _ (Some w) _ (Some (Some (o_type V obj)))); eauto using same_app.
    + rewrite P1. eapply OInv_ext; [|exact S4]. intros k. unfold setk. destruct (kdec k None) as [->|Nk]; [destruct (kdec None (Some x)); [discriminate|reflexivity]|].
      destruct (kdec k (Some x)); [destruct (kdec None None); congruence|]. reflexivity.
    + cbn. rewrite (proj1 HO) in P1. split; [exact P1|]. exists obj. split; [|reflexivity]. rewrite nth_error_app2 by lia. now rewrite Nat.sub_diag.
  - (* Destroy *) destruct (e x) as [b|] eqn:Ex; [|discriminate]. injection H as <- <-. destruct (AL x b Ex) as (wx & sx & Vx & Tx & Gb & Gs). rewrite Vx. cbn [bind].
    destruct (O_unshare _ _ _ (Some x) HO) as (h' & E4 & S4). rewrite (OX x wx Vx) in E4. rewrite E4. cbn [bind].
    destruct (t_release ifaces _ _ te x wx HT Vx) as (vts & E & S). rewrite E. cbn [bind]. eexists. split; [reflexivity|].
    eapply (s_set s objs e te x _ _ objs None None None); eauto using same_refl; exact I.
  - (* Test *) destruct (e x) as [a|] eqn:Ex; [|discriminate]. destruct (AL x a Ex) as (wx & sx & Vx & Tx & Gb & Gs). rewrite Vx. cbn [bind].
    assert (HR : SRel s (objs, e)) by (exists te; auto). destruct a as [| |k], sx as [t|]; cbn in Gb; try contradiction; try discriminate.
    + injection H as <- <-. destruct Gs as (-> & _). exists s. split; [reflexivity|exact HR].
    + injection H as <- <-. destruct Gs as (l & vt & _ & _ & -> & _). exists s. split; [|exact HR]. destruct (Nat.eqb_spec total 0); [lia|reflexivity].
  - (* Call *) destruct (e x) as [a|] eqn:Ex; [|discriminate]. destruct (AL x a Ex) as (wx & sx & Vx & Tx & Gb & Gs). rewrite Vx. cbn [bind].
    destruct a as [| |k]; try discriminate. destruct (nth_error objs k) as [obj|] eqn:Eo; [|discriminate]. destruct (method ifaces i n) eqn:Em; [|discriminate].
    destruct sx as [t|]; cbn in Gb; [|contradiction]. destruct Gb as (Hp & o & Ho & Ht). assert (o = obj) by congruence. subst o t. rewrite Hp.
    destruct (counted_live _ _ objs (Some x) k HO) as (o & m & K1 & K2 & K3); [rewrite (OX x wx Vx); exact Hp|]. assert (o = obj) by congruence. subst o.
    rewrite K3. cbn [bind fst snd]. rewrite (invoke_ok _ wx obj i n arg Gs Em). cbn [bind]. pose proof (apply_type obj i n arg) as HTy. destruct (apply_method V A R call obj i n arg) as [obj' res]. cbn [fst snd] in *.
    injection H as <- <-. unfold store. rewrite K3. cbn [bind]. eexists. split; [reflexivity|]. exists te. cbn [s_vtables s_vars s_objects fst snd]. split; [exact HT|]. split; [eapply O_store; eauto|].
    intros z. eapply agree_types; [|apply HA]. intros q o Hq. destruct (Nat.eq_dec q k) as [->|N].
    + exists obj'. rewrite nth_error_upd_same by (apply nth_error_Some; congruence). split; [reflexivity|]. congruence.
    + exists o. rewrite nth_error_upd_other by auto. auto.
Qed.
Lemma s_run_ok ops : forall s z z' r, SRel s z -> shared_run ifaces V A R call z ops = Some (z', r) -> exists s', s_run ifaces V A R call s ops = Ok (s', r) /\ SRel s' z'.
Proof.
  induction ops as [|o ops IH]; intros s z z' r HR H; cbn in H.
  - injection H as <- <-. exists s. split; [reflexivity|exact HR].
  - destruct (shared_step ifaces V A R call z o) as [[z1 x]|] eqn:E; [|discriminate]. destruct (shared_run ifaces V A R call z1 ops) as [[z2 xs]|] eqn:E2; [|discriminate]. injection H as <- <-.
    destruct (s_step_ok s z o z1 x HR E) as (s1 & S1 & R1). destruct (IH s1 z1 z2 xs R1 E2) as (s2 & S2 & R2). exists s2. split; [|exact R2].
    cbn [s_run]. rewrite S1. cbn [bind fst snd]. rewrite S2. reflexivity.
Qed.
(* every covered history behaves as references to shared objects, without undefined behaviour; an object is destroyed exactly when the last
   variable which refers to it is gone; once all the variables are gone nothing is left allocated *)
Theorem C187_shared_semantics_partial ops objs e outs : shared_run ifaces V A R call ([], fun _ => None) ops = Some ((objs, e), outs) ->
  exists s, s_run ifaces V A R call (s_init V) ops = Ok (s, outs) /\
    (forall k o, nth_error objs k = Some o -> (exists x, e x = Some (SHolds k)) -> exists n, nth_error (s_objects V s) k = Some (Live (o, n))) /\
    (forall k, (forall x, e x <> Some (SHolds k)) -> forall c, nth_error (s_objects V s) k = Some c -> c = Freed) /\
    ((forall x, e x = None) -> (forall c, In c (s_objects V s) -> c = Freed) /\ (forall c, In c (s_vtables V s) -> c = Freed)).
Proof.
  intros H. destruct (s_run_ok ops (s_init V) _ (objs, e) outs sinit_rel H) as (s & E & te & HT & HO & HA). cbn [fst snd] in HO, HA. exists s. split; [exact E|].
  assert (ON : forall x k, owner w_ptr (s_vars V s) x = Some k <-> e x = Some (SHolds k)).
  { intros x k. unfold owner. specialize (HA x). destruct (s_vars V s x) as [w|]; [|destruct (e x) as [[| |j]|]; [contradiction..|split; discriminate]].
    destruct (e x) as [[| |j]|], (te x) as [[t|]|]; cbn in HA; try contradiction; try (rewrite HA; split; discriminate). destruct HA as [-> _]. split; congruence. }
  destruct HO as (H1 & H2 & H3). assert (FR : forall k, (forall x, e x <> Some (SHolds k)) -> forall c, nth_error (s_objects V s) k = Some c -> c = Freed).
  { intros k Hk c Hc. assert (k < length (s_objects V s)) by (apply nth_error_Some; congruence). destruct (nth_error objs k) as [o|] eqn:Eo; [|apply nth_error_None in Eo; lia].
    destruct (H3 k o Eo) as (L & [_ HL] & HC). destruct L as [|[z|] L]; cbn in HC; [congruence| |].
    - exfalso. apply (Hk z). apply ON. apply (HL (Some z)). now left.
    - exfalso. assert (K : lown (s_vars V s) None = Some k) by (apply HL; now left). discriminate. }
  split; [|split; [exact FR|]].
  - intros k o Hk [x Hx]. apply ON in Hx. destruct (H3 k o Hk) as (L & [_ HL] & HC). apply (HL (Some x)) in Hx. destruct L as [|a L]; [contradiction|]. eexists. exact HC.
  - intros Hd. split.
    + intros c Hc. apply In_nth_error in Hc as [k Hk]. apply (FR k); [intros x; rewrite Hd; discriminate|exact Hk].
    + apply (t_empty ifaces _ _ te HT). intros x. specialize (HA x). rewrite Hd in HA. destruct (s_vars V s x); [|reflexivity]. destruct (te x); contradiction.
Qed.
End Shared.

(* ------------------------------------------------------------------ views *)
Section Views.
Variable ifaces : list (nat * nat).
Variables (V A R : Type).
Variable call : nat -> nat -> nat -> V -> A -> V * R.
Hypothesis Hdup : NoDup (map fst ifaces).
Hypothesis Hpos : 0 < list_sum (map snd ifaces).
Hypothesis Hmax : (Z.of_nat (list_sum (map snd ifaces)) < 2 ^ 15)%Z.
Local Notation object := (object V).
Local Notation total := (list_sum (map snd ifaces)).
Definition mem_cell (o : option object) : cell object := match o with Some o => Live o | None => Freed end.
(* the types of the objects ever made *)
Definition vagree (types : list nat) (w : option wrapper) (a : option vval) (st : option (option nat)) : Prop :=
  match w, a, st with
  | None, None, None => True
  | Some w, Some VEmpty, Some None => w_ptr w = None
  | Some w, Some (VRefers p), Some (Some t) => w_ptr w = Some p /\ nth_error types p = Some t
  | _, _, _ => False
  end.
Definition typed (types : list nat) (m : list (option object)) : Prop := length types = length m /\ forall p o, alive V m p = Some o -> nth_error types p = Some (o_type V o).
Definition VRel (s : vstate V) (z : list (option object) * (nat -> option vval)) : Prop :=
  exists te types, TInv ifaces (v_vtables V s) (v_vars V s) te /\ v_objects V s = map mem_cell (fst z) /\ typed types (fst z) /\ forall x, vagree types (v_vars V s x) (snd z x) (te x).
Lemma load_alive m p : load (map mem_cell m) p = match alive V m p with Some o => Ok o | None => UB end.
Proof. unfold load, nth_res, alive. rewrite nth_error_map. destruct (nth_error m p) as [[o|]|]; reflexivity. Qed.
Lemma map_upd_cell m p o : upd (map mem_cell m) p (mem_cell o) = map mem_cell (upd m p o).
Proof. revert p. induction m as [|c m IH]; intros [|p]; cbn; [reflexivity..|]. now rewrite IH. Qed.
Lemma alive_upd m p o q : p < length m -> alive V (upd m p o) q = if q =? p then o else alive V m q.
Proof.
  intros H. unfold alive. destruct (Nat.eqb_spec q p) as [->|N]; [rewrite nth_error_upd_same by auto; destruct o; reflexivity|]. now rewrite nth_error_upd_other by auto.
Qed.
Lemma alive_lt m p o : alive V m p = Some o -> p < length m.
Proof. unfold alive. intros H. apply nth_error_Some. destruct (nth_error m p); congruence. Qed.
Lemma typed_upd types m p o o' : typed types m -> alive V m p = Some o -> match o' with Some u => o_type V u = o_type V o | None => True end -> typed types (upd m p o').
Proof.
  intros [H1 H2] Ho Hu. split; [now rewrite upd_length|]. intros q u. rewrite alive_upd by (eapply alive_lt; eauto). destruct (Nat.eqb_spec q p) as [->|N]; [|apply H2].
  intros ->. rewrite Hu. now apply H2.
Qed.
Lemma v_set s m e te types x vts w a st :
  TInv ifaces (v_vtables V s) (v_vars V s) te -> v_objects V s = map mem_cell m -> typed types m -> (forall x, vagree types (v_vars V s x) (e x) (te x)) ->
  PStep (v_vtables V s) (owner w_vtable (v_vars V s)) x vts (match w with Some v => w_vtable v | None => None end) ->
  match w, st with None, None => True | Some v, Some b => tab_ok ifaces vts v b | _, _ => False end -> vagree types w a st ->
  VRel (VState V (v_objects V s) vts (set (v_vars V s) x w)) (m, eset e x a).
Proof.
  intros HT HM HY HA HP Hw Ha. exists (eset te x st), types. cbn [v_vtables v_vars v_objects fst snd]. split; [|split; [exact HM|split; [exact HY|]]].
  - eapply t_set; eauto.
  - intros z. destruct (Nat.eq_dec z x) as [->|N]; [now rewrite set_same, !eset_same|]. rewrite set_other, !eset_other by auto. apply HA.
Qed.
Lemma v_mem s m' e te types types' :
  TInv ifaces (v_vtables V s) (v_vars V s) te -> typed types' m' -> (forall p t, nth_error types p = Some t -> nth_error types' p = Some t) -> (forall x, vagree types (v_vars V s x) (e x) (te x)) ->
  forall h, h = map mem_cell m' -> VRel (VState V h (v_vtables V s) (v_vars V s)) (m', e).
Proof.
  intros HT HY HS HA h ->. exists te, types'. cbn [v_vtables v_vars v_objects fst snd]. split; [exact HT|]. split; [reflexivity|]. split; [exact HY|]. intros x. specialize (HA x).
  destruct (v_vars V s x), (e x) as [[|p]|], (te x) as [[t|]|]; cbn in *; auto. destruct HA as [H1 H2]. auto.
Qed.
Lemma v_step_ok s z o z' r : VRel s z -> view_step ifaces V A R call z o = Some (z', r) -> exists s', v_step ifaces V A R call s o = Ok (s', r) /\ VRel s' z'.
Proof.
  destruct z as [m e]. intros HR H. pose proof HR as (te & types & HT & HM & HY & HA). cbn [fst snd] in HM, HY, HA.
  assert (AV : forall x, e x = None -> v_vars V s x = None).
  { intros x E. specialize (HA x). rewrite E in HA. destruct (v_vars V s x); [|reflexivity]. destruct (te x); contradiction. }
  assert (AL : forall x a, e x = Some a -> exists w st, v_vars V s x = Some w /\ te x = Some st /\ vagree types (Some w) (Some a) (Some st) /\ tab_ok ifaces (v_vtables V s) w st).
  { intros x a E. specialize (HA x). pose proof (proj2 HT x) as HB. rewrite E in HA. destruct (v_vars V s x) as [w|]; [|contradiction]. destruct (te x) as [st|]; [|destruct a; contradiction]. eauto 8. }
  assert (CP : forall x y, (match e x, e y with None, Some VEmpty => None | None, Some a => Some ((m, eset e x (Some a)), VNothing V R) | _, _ => None end) = Some (z', r) ->
    exists s', (_ <- v_fresh V s x ;; wy <- v_live V s y ;; r <- handler_copy (v_vtables V s) wy ;; let '(v, l, n) := r in
      Ok (VState V (v_objects V s) v (set (v_vars V s) x (Some (Wrapper l n (w_offsets wy) (w_ptr wy) None None))), VNothing V R)) = Ok (s', r) /\ VRel s' z').
  { clear H. intros x y H. destruct (e x) eqn:Ex; [discriminate|]. assert (Vx := AV x Ex). destruct (e y) as [a|] eqn:Ey; [|discriminate]. destruct (AL y a Ey) as (wy & st & Vy & Ty & Ga & Gt).
    destruct a as [|p]; [discriminate|]. injection H as <- <-. unfold v_fresh, v_live. rewrite Vx, Vy. cbn [bind]. destruct st as [t|]; cbn in Ga; [|contradiction].
    destruct (t_copy ifaces _ _ te x wy t HT Vx Gt) as (vts & l & E & S & T). rewrite E. cbn [bind]. eexists. split; [reflexivity|].
    eapply (v_set s m e te types x _ (Some _) _ (Some (Some t))); eauto. }
  assert (AS : forall x y, (if x =? y then None else match e x, e y with Some _, Some a => Some ((m, eset e x (Some a)), VNothing V R) | _, _ => None end) = Some (z', r) ->
    exists s', (wx <- v_live V s x ;; wy <- v_live V s y ;; r <- handler_assign (v_vtables V s) x y wx wy ;; let '(v, l, n) := r in
      Ok (VState V (v_objects V s) v (set (v_vars V s) x (Some (Wrapper (Some l) (Some n) (w_offsets wy) (w_ptr wy) None None))), VNothing V R)) = Ok (s', r) /\ VRel s' z').
  { clear H. intros x y H. destruct (Nat.eqb_spec x y) as [|Nxy]; [discriminate|]. destruct (e x) as [b|] eqn:Ex; [|discriminate]. destruct (e y) as [a|] eqn:Ey; [|discriminate]. injection H as <- <-.
    destruct (AL x b Ex) as (wx & sx & Vx & Tx & Gb & Gs). destruct (AL y a Ey) as (wy & st & Vy & Ty & Ga & Gt). unfold v_live. rewrite Vx, Vy. cbn [bind].
    destruct (t_assign ifaces _ _ te x y wx wy st Nxy HT Vx Vy Ty) as (vts & l & n & E & S & T). rewrite E. cbn [bind]. eexists. split; [reflexivity|].
    eapply (v_set s m e te types x _ (Some _) _ (Some st)); eauto. }
  destruct o as [o|p|x|x p|x y|x y|x y|x y|x p|x|x|x i n arg|p|p v]; cbn [view_step] in H; cbn [v_step]; try (apply CP; exact H); try (apply AS; exact H); unfold v_fresh, v_live.
  - (* Alloc *) injection H as <- <-. eexists. split; [reflexivity|]. eapply (v_mem s _ e te types (types ++ [o_type V o])); eauto.
    + destruct HY as [H1 H2]. split; [rewrite !app_length; cbn; lia|]. intros p u Hu. unfold alive in Hu. destruct (lt_dec p (length m)) as [Lp|Lp].
      * rewrite nth_error_app1 in Hu by auto. rewrite nth_error_app1 by lia. apply H2. exact Hu.
      * assert (p = length m) as ->. { destruct (nth_error (m ++ [Some o]) p) eqn:En; [|discriminate]. assert (K : p < length (m ++ [Some o])) by (apply nth_error_Some; congruence). rewrite app_length in K. cbn in K. lia. }
        rewrite nth_error_app2, Nat.sub_diag in Hu by lia. cbn in Hu. injection Hu as <-. rewrite nth_error_app2 by lia. now rewrite H1, Nat.sub_diag.
    + intros p t Hp. rewrite nth_error_app1; [exact Hp|]. apply nth_error_Some. congruence.
    + rewrite HM, map_app. reflexivity.
  - (* Kill *) destruct (alive V m p) as [o|] eqn:Eo; [|discriminate]. injection H as <- <-. unfold free. rewrite HM, load_alive, Eo. cbn [bind]. eexists. split; [reflexivity|].
    eapply (v_mem s _ e te types types); eauto; [eapply typed_upd; eauto; exact I|]. apply (map_upd_cell m p None).
  - (* VNew *) destruct (e x) eqn:Ex; [discriminate|]. injection H as <- <-. rewrite (AV x Ex). cbn [bind]. eexists. split; [reflexivity|].
    eapply (v_set s m e te types x _ (Some no_handler) (Some VEmpty) (Some None)); eauto; [apply (t_fresh ifaces _ _ te); auto|cbn; auto|reflexivity].
  - (* View *) destruct (e x) eqn:Ex; [discriminate|]. destruct (alive V m p) as [o|] eqn:Eo; [|discriminate]. injection H as <- <-. assert (Vx := AV x Ex). rewrite Vx. cbn [bind]. rewrite HM, load_alive, Eo. cbn [bind].
    destruct (t_init ifaces Hdup Hpos Hmax _ _ te x (Wrapper None (Some 0) [] (Some p) None None) (o_type V o) HT) as (vts & w & E & S & T & P1 & _); [cbn; unfold owner; now rewrite Vx|].
    rewrite E. cbn [bind]. rewrite <- HM. eexists. split; [reflexivity|]. eapply (v_set s m e te types x _ (Some w) _ (Some (Some (o_type V o)))); eauto. cbn. split; [exact P1|now apply HY].
  - (* ViewAssign *) destruct (e x) as [b|] eqn:Ex; [|discriminate]. destruct (alive V m p) as [o|] eqn:Eo; [|discriminate]. injection H as <- <-. destruct (AL x b Ex) as (wx & sx & Vx & Tx & Gb & Gs). rewrite Vx. cbn [bind].
    rewrite HM, load_alive, Eo. cbn [bind].
    destruct (t_init ifaces Hdup Hpos Hmax _ _ te x (Wrapper (w_vtable wx) (w_size wx) (w_offsets wx) (Some p) None None) (o_type V o) HT) as (vts & w & E & S & T & P1 & _); [cbn; unfold owner; now rewrite Vx|].
    rewrite E. cbn [bind]. rewrite <- HM. eexists. split; [reflexivity|]. eapply (v_set s m e te types x _ (Some w) _ (Some (Some (o_type V o)))); eauto. cbn. split; [exact P1|now apply HY].
  - (* VDestroy *) destruct (e x) as [b|] eqn:Ex; [|discriminate]. injection H as <- <-. destruct (AL x b Ex) as (wx & sx & Vx & Tx & Gb & Gs). rewrite Vx. cbn [bind].
    destruct (t_release ifaces _ _ te x wx HT Vx) as (vts & E & S). rewrite E. cbn [bind]. eexists. split; [reflexivity|]. eapply (v_set s m e te types x _ None None None); eauto; exact I.
  - (* VTest *) destruct (e x) as [a|] eqn:Ex; [|discriminate]. destruct (AL x a Ex) as (wx & sx & Vx & Tx & Gb & Gs). rewrite Vx. cbn [bind].
    destruct a as [|p], sx as [t|]; cbn in Gb; try contradiction; injection H as <- <-.
    + destruct Gs as (-> & _). exists s. split; [reflexivity|exact HR].
    + destruct Gs as (l & vt & _ & _ & -> & _). exists s. split; [|exact HR]. destruct (Nat.eqb_spec total 0); [lia|reflexivity].
  - (* VCall *) destruct (e x) as [a|] eqn:Ex; [|discriminate]. destruct (AL x a Ex) as (wx & sx & Vx & Tx & Gb & Gs). rewrite Vx. cbn [bind].
    destruct a as [|p]; [discriminate|]. destruct (alive V m p) as [obj|] eqn:Eo; [|discriminate]. destruct (method ifaces i n) eqn:Em; [|discriminate].
    destruct sx as [t|]; cbn in Gb; [|contradiction]. destruct Gb as (Hp & Ht). assert (t = o_type V obj) by (pose proof (proj2 HY p obj Eo); congruence). subst t. rewrite Hp, HM, load_alive, Eo. cbn [bind].
    rewrite (invoke_ok ifaces V A R call _ wx obj i n arg Gs Em). cbn [bind]. pose proof (apply_type V A R call obj i n arg) as HTy. destruct (apply_method V A R call obj i n arg) as [obj' res]. cbn [fst snd] in *.
    injection H as <- <-. unfold store. rewrite load_alive, Eo. cbn [bind]. eexists. split; [reflexivity|].
    eapply (v_mem s _ e te types types); eauto; [eapply typed_upd; eauto|]. apply (map_upd_cell m p (Some obj')).
  - (* Peek *) destruct (alive V m p) as [o|] eqn:Eo; [|discriminate]. injection H as <- <-. rewrite HM, load_alive, Eo. cbn [bind]. exists s. split; [reflexivity|exact HR].
  - (* Poke *) destruct (alive V m p) as [o|] eqn:Eo; [|discriminate]. injection H as <- <-. unfold store. rewrite HM, load_alive, Eo. cbn [bind]. eexists. split; [reflexivity|].
    eapply (v_mem s _ e te types types); eauto; [eapply typed_upd; eauto; reflexivity|]. apply (map_upd_cell m p (Some _)).
Qed.
Lemma v_run_ok ops : forall s z z' r, VRel s z -> view_run ifaces V A R call z ops = Some (z', r) -> exists s', v_run ifaces V A R call s ops = Ok (s', r) /\ VRel s' z'.
Proof.
  induction ops as [|o ops IH]; intros s z z' r HR H; cbn in H.
  - injection H as <- <-. exists s. split; [reflexivity|exact HR].
  - destruct (view_step ifaces V A R call z o) as [[z1 x]|] eqn:E; [|discriminate]. destruct (view_run ifaces V A R call z1 ops) as [[z2 xs]|] eqn:E2; [|discriminate]. injection H as <- <-.
    destruct (v_step_ok s z o z1 x HR E) as (s1 & S1 & R1). destruct (IH s1 z1 z2 xs R1 E2) as (s2 & S2 & R2). exists s2. split; [|exact R2].
    cbn [v_run]. rewrite S1. cbn [bind fst snd]. rewrite S2. reflexivity.
Qed.
Lemma vinit_rel : VRel (v_init V) ([], fun _ => None).
Proof.
  exists (fun _ => None), []. cbn. split; [|split; [reflexivity|split; [|intros x; exact I]]].
  - split; [|intros x; exact I]. split; [|split]; [intros; discriminate|intros; discriminate|]. intros p a H. destruct p; discriminate.
  - split; [reflexivity|]. intros [|p] o Hp; discriminate.
Qed.
(* every covered history behaves as pointers to the caller's objects: the caller sees what is done through the views and conversely, and no operation on views
   starts or ends the life of an object; once the variables are gone no table is left allocated *)
Theorem C188_view_semantics_partial ops m e outs : view_run ifaces V A R call ([], fun _ => None) ops = Some ((m, e), outs) ->
  exists s, v_run ifaces V A R call (v_init V) ops = Ok (s, outs) /\ v_objects V s = map mem_cell m /\
    ((forall x, e x = None) -> forall c, In c (v_vtables V s) -> c = Freed).
Proof.
  intros H. destruct (v_run_ok ops (v_init V) _ (m, e) outs vinit_rel H) as (s & E & te & types & HT & HM & HY & HA). exists s. split; [exact E|]. split; [exact HM|]. intros Hd.
  apply (t_empty ifaces _ _ te HT). intros x. specialize (HA x). cbn [snd] in HA. rewrite Hd in HA. destruct (v_vars V s x); [|reflexivity]. destruct (te x); contradiction.
Qed.
(* the view does not keep the object alive: after any history, a call through a view whose object is gone is undefined *)
Theorem C188_dangling ops m e outs x p : view_run ifaces V A R call ([], fun _ => None) ops = Some ((m, e), outs) -> e x = Some (VRefers p) -> alive V m p = None ->
  forall i n a, v_run ifaces V A R call (v_init V) (ops ++ [VCall V A x i n a]) = UB.
Proof.
  intros H Ex Ep i n a. destruct (v_run_ok ops (v_init V) _ (m, e) outs vinit_rel H) as (s & E & te & types & HT & HM & HY & HA). cbn [fst snd] in *.
  assert (K : v_step ifaces V A R call s (VCall V A x i n a) = UB).
  { specialize (HA x). rewrite Ex in HA. cbn [v_step]. unfold v_live. destruct (v_vars V s x) as [w|]; [|contradiction]. cbn [bind]. destruct (te x) as [[t|]|]; cbn in HA; try contradiction.
    destruct HA as [-> _]. rewrite HM, load_alive, Ep. reflexivity. }
  clear H Ex Ep HA HT HM HY. revert E. generalize (v_init V) as s0. revert outs. induction ops as [|o r IH]; intros outs s0 H; cbn [v_run app] in H |- *.
  - injection H as -> _. rewrite K. reflexivity.
  - destruct (v_step ifaces V A R call s0 o) as [[s1 y]| | |]; cbn [bind fst snd] in *; try discriminate.
    destruct (v_run ifaces V A R call s1 r) as [[s2 ys]| | |] eqn:E1; cbn [bind fst snd] in *; try discriminate. injection H as -> _. rewrite (IH ys s1 E1). reflexivity.
Qed.
End Views.

(* ------------------------------------------------------------------ examples, and what the partial theorems exclude *)
Definition sh_run := s_run [(0, 1)] nat unit nat ex_call (s_init nat).
Definition vw_run := v_run [(0, 1)] nat unit nat ex_call (v_init nat).
(* x = x leaves a table of indeterminate entries: the next call is undefined *)
Theorem C187_self_assign_refuted : sh_run [Make nat unit 0 (Object nat 0 1); Assign nat unit 0 0; Call nat unit 0 0 0 tt] = UB.
Proof. reflexivity. Qed.
Theorem C187_copy_of_empty_refuted : sh_run [New nat unit 0; Copy nat unit 1 0; Test nat unit 1] = UB.
Proof. reflexivity. Qed.
(* a variable that was moved from tests true and holds nothing *)
Theorem C187_moved_from_refuted :
  (exists s, sh_run [Make nat unit 0 (Object nat 0 1); Move nat unit 1 0; Test nat unit 0] = Ok (s, [Nothing nat; Nothing nat; Bool nat true])) /\
  sh_run [Make nat unit 0 (Object nat 0 1); Move nat unit 1 0; Call nat unit 0 0 0 tt] = UB.
Proof. split; [eexists|]; reflexivity. Qed.
Theorem C188_self_assign_refuted : vw_run [Alloc nat unit (Object nat 0 1); View nat unit 0 0; VAssign nat unit 0 0; VCall nat unit 0 0 0 tt] = UB.
Proof. reflexivity. Qed.
Theorem C188_copy_of_empty_refuted : vw_run [VNew nat unit 0; VCopy nat unit 1 0; VTest nat unit 1] = UB.
Proof. reflexivity. Qed.

Example C187_example : exists e, shared_run [(0, 1)] nat unit nat ex_call ([], fun _ => None)
  [Make nat unit 0 (Object nat 0 5); Copy nat unit 1 0; Call nat unit 0 0 0 tt; Call nat unit 1 0 0 tt; Move nat unit 2 0; Destroy nat unit 1; Call nat unit 2 0 0 tt; New nat unit 3; Assign nat unit 3 2;
   AssignValue nat unit 2 (Object nat 1 7); Call nat unit 3 0 0 tt; Call nat unit 2 0 0 tt; AssignMove nat unit 0 3; Test nat unit 0; Destroy nat unit 2]
  = Some (([Object nat 0 80; Object nat 1 14], e), [Nothing nat; Nothing nat; Result nat 10; Result nat 20; Nothing nat; Nothing nat; Result nat 40; Nothing nat; Nothing nat;
     Nothing nat; Result nat 80; Result nat 14; Nothing nat; Bool nat true; Nothing nat])
  /\ e 0 = Some (SHolds 0) /\ e 2 = None /\ e 3 = Some SMoved.
Proof. eexists. split; [reflexivity|]. repeat split. Qed.
Example C188_example : exists e, view_run [(0, 1)] nat unit nat ex_call ([], fun _ => None)
  [Alloc nat unit (Object nat 0 5); View nat unit 0 0; VMove nat unit 1 0; VCall nat unit 0 0 0 tt; VCall nat unit 1 0 0 tt; Peek nat unit 0; Poke nat unit 0 3; VCall nat unit 1 0 0 tt;
   VDestroy nat unit 1; Alloc nat unit (Object nat 1 9); ViewAssign nat unit 0 1; VTest nat unit 0; View nat unit 4 0; Kill nat unit 0]
  = Some (([None; Some (Object nat 1 9)], e), [VNothing nat nat; VNothing nat nat; VNothing nat nat; VResult nat nat 10; VResult nat nat 20; VSeen nat nat (Object nat 0 20); VNothing nat nat;
      VResult nat nat 6; VNothing nat nat; VNothing nat nat; VNothing nat nat; VBool nat nat true; VNothing nat nat; VNothing nat nat])
  /\ e 4 = Some (VRefers 0).
Proof. eexists. split; [reflexivity|]. reflexivity. Qed.
Print Assumptions C187_shared_semantics_partial.
Print Assumptions C188_view_semantics_partial.
Print Assumptions C188_dangling.

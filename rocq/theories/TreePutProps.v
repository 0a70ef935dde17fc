(* Property C123: push_left, push_right and emplace. *)
From Verif Require Import Base TreeModel TreeSpec TreeProofs.

(* ---- specification: the child on the given side of node p gets datum x; a missing child is created at a *)
Section Put.
Context {T : Type}.
Implicit Types t l r : mtree T.
Definition put_root (a : addr) (x : T) t : mtree T :=
  match t with MLeaf => MNode a x MLeaf MLeaf | MNode b _ l r => MNode b x l r end.
Fixpoint put (side : bool) (p a : addr) (x : T) t : mtree T :=
  match t with
  | MLeaf => MLeaf
  | MNode b y l r =>
      if b =? p then (if side then MNode b y (put_root a x l) r else MNode b y l (put_root a x r))
      else MNode b y (put side p a x l) (put side p a x r)
  end.

Lemma put_raddr side p a x t : raddr (put side p a x t) = raddr t.
Proof. destruct t as [|b y l r]; cbn; [reflexivity|]. destruct (b =? p); [destruct side|]; reflexivity. Qed.
Lemma put_id side p a x t : ~ In p (addrs t) -> put side p a x t = t.
Proof.
  induction t as [|b y l IHl r IHr]; cbn [addrs put]; [reflexivity|]. intros H. destruct (Nat.eqb_spec b p); [exfalso; apply H; now left|].
  rewrite IHl, IHr; [reflexivity| |]; intros K; apply H; right; apply in_or_app; auto.
Qed.
Lemma put_addrs side p a x t b : In b (addrs (put side p a x t)) -> b = a \/ In b (addrs t).
Proof.
  induction t as [|c y l IHl r IHr]; cbn [addrs put]; [intros []|].
  assert (R : forall u, In b (addrs (put_root a x u)) -> b = a \/ In b (addrs u)) by (intros [|e z u v]; cbn; [intros [->|[]]; auto|auto]).
  destruct (c =? p); [destruct side|]; cbn [addrs]; (intros [->|H]; [right; now left|]); apply in_app_or in H as [H|H];
    try (apply R in H as [H|H]); try (apply IHl in H as [H|H]); try (apply IHr in H as [H|H]); auto; right; right; apply in_or_app; auto.
Qed.
Lemma NoDup_cons_app (c : addr) u v : ~ In c u -> ~ In c v -> NoDup u -> NoDup v -> (forall z, In z u -> ~ In z v) -> NoDup (c :: u ++ v).
Proof.
  intros H1 H2 H3 H4 H5. constructor; [rewrite in_app_iff; tauto|]. induction u as [|z u IH]; [exact H4|]. cbn. inversion H3; subst. constructor.
  - rewrite in_app_iff. intros [K|K]; [contradiction|]. apply (H5 z); [now left|exact K].
  - apply IH; auto; [intros K; apply H1; now right|intros w Hw; apply H5; now right].
Qed.
Lemma NoDup_node (c : addr) u v : NoDup (c :: u ++ v) -> ~ In c u /\ ~ In c v /\ NoDup u /\ NoDup v /\ (forall z, In z u -> ~ In z v).
Proof.
  intros H. inversion H as [|? ? N ND]; subst. rewrite in_app_iff in N. split; [tauto|]. split; [tauto|]. clear N H.
  induction u as [|z u IH]; cbn in ND; [split; [constructor|split; [exact ND|intros z []]]|]. inversion ND as [|? ? N' ND']; subst. rewrite in_app_iff in N'. destruct (IH ND') as (A & B & D).
  split; [constructor; tauto|]. split; [exact B|]. intros w [<-|Hw]; [tauto|now apply D].
Qed.
Lemma put_nodup side p a x t : ~ In a (addrs t) -> NoDup (addrs t) -> NoDup (addrs (put side p a x t)).
Proof.
  induction t as [|c y l IHl r IHr]; cbn [addrs put]; intros Ha ND; [constructor|]. apply NoDup_node in ND as (N1 & N2 & N3 & N4 & N5).
  assert (Al : ~ In a (addrs l)) by (intros K; apply Ha; right; apply in_or_app; auto). assert (Ar : ~ In a (addrs r)) by (intros K; apply Ha; right; apply in_or_app; auto). assert (Ac : c <> a) by (intros ->; apply Ha; now left).
  assert (R : forall u, ~ In c (addrs u) -> ~ In a (addrs u) -> NoDup (addrs u) -> ~ In c (addrs (put_root a x u)) /\ NoDup (addrs (put_root a x u))).
  { intros [|e z u v]; cbn; intros H1 H2 H3; [|auto]. split; [intros [K|[]]; congruence|repeat constructor; auto]. }
  assert (RI : forall u z, In z (addrs (put_root a x u)) -> z = a \/ In z (addrs u)) by (intros [|e z u v] w; cbn; [intros [<-|[]]; auto|auto]).
  destruct (c =? p); [destruct side|]; cbn [addrs].
  - destruct (R l N1 Al N3). apply NoDup_cons_app; auto. intros z Hz. apply RI in Hz as [->|Hz]; auto.
  - destruct (R r N2 Ar N4). apply NoDup_cons_app; auto. intros z Hz K. apply RI in K as [->|K]; [contradiction|]. exact (N5 z Hz K).
  - assert (E : put side p a x l = l \/ put side p a x r = r).
    { destruct (in_dec Nat.eq_dec p (addrs l)) as [Hp|Hp]; [right|left]; apply put_id; auto. }
    apply NoDup_cons_app; auto.
    + intros K. apply put_addrs in K as [K|K]; [congruence|contradiction].
    + intros K. apply put_addrs in K as [K|K]; [congruence|contradiction].
    + intros z Hz K. destruct E as [E|E]; rewrite E in *.
      * apply put_addrs in K as [->|K]; [contradiction|exact (N5 z Hz K)].
      * apply put_addrs in Hz as [->|Hz]; [contradiction|exact (N5 z Hz K)].
Qed.

(* the address of the child of p on the given side, if there is one *)
Fixpoint child_at (side : bool) (p : addr) t : option addr :=
  match t with
  | MLeaf => None
  | MNode b _ l r => if b =? p then raddr (if side then l else r) else match child_at side p l with Some c => Some c | None => child_at side p r end
  end.
Lemma child_in side p t c : child_at side p t = Some c -> In p (addrs t) /\ In c (addrs t).
Proof.
  assert (RI : forall u : mtree T, raddr u = Some c -> In c (addrs u)) by (intros [|e z u v]; cbn; [discriminate|intros E; injection E as ->; now left]).
  induction t as [|b y l IHl r IHr]; cbn [child_at addrs]; [discriminate|]. destruct (Nat.eqb_spec b p) as [->|N].
  - intros H. split; [now left|]. right. apply in_or_app. destruct side; apply RI in H; auto.
  - destruct (child_at side p l) as [c'|] eqn:E; intros H.
    + injection H as ->. destruct (IHl eq_refl). split; right; apply in_or_app; auto.
    + destruct (IHr H). split; right; apply in_or_app; auto.
Qed.
Definition new_addr side p t (a : addr) : addr := match child_at side p t with Some c => c | None => a end.

Lemma put_ok side x t : forall h d par p, sane h -> NoDup (addrs t) -> holds h d t -> parents_ok h par t -> In p (addrs t) ->
  exists h', (forall o, push_child h o (Some p) side x = Ok (h', mktree (root o) (n_nodes o + match child_at side p t with Some _ => 0 | None => 1 end), new_addr side p t (next h))) /\
    msize (put side p (next h) x t) = msize t + (match child_at side p t with Some _ => 0 | None => 1 end) /\
    holds h' d (put side p (next h) x t) /\ parents_ok h' par (put side p (next h) x t) /\ sane h' /\
    (forall b, b <> next h -> ~ In b (addrs t) -> cells h' b = cells h b).
Proof.
  induction t as [|b y l IHl r IHr]; intros h d par p Hs ND H Hp Hin; [destruct Hin|]. pose proof ND as ND0. cbn [addrs] in ND. apply NoDup_node in ND as (N1 & N2 & N3 & N4 & N5).
  pose proof H as Hall. cbn [holds] in H. destruct H as ((q & Eb) & Hl & Hr). cbn [parents_ok] in Hp. destruct Hp as ((nb & Enb & Epar) & Pl & Pr).
  rewrite Eb in Enb. injection Enb as <-. cbn [nparent] in Epar. subst q.
  assert (Hb : b < next h) by (apply (sane_lt _ _ _ b Hs Hall); cbn; now left).
  assert (Bl : forall z, In z (addrs l) -> z < next h) by (intros z Hz; apply (sane_lt _ _ _ z Hs Hl Hz)).
  assert (Br : forall z, In z (addrs r) -> z < next h) by (intros z Hz; apply (sane_lt _ _ _ z Hs Hr Hz)).
  cbn [put child_at]. unfold new_addr. cbn [child_at]. destruct (Nat.eqb_spec b p) as [->|Nb].
  - (* the node itself *)
    assert (G : forall u v (s : bool), u = (if s then l else r) -> v = (if s then r else l) -> s = side ->
      exists h', (forall o, push_child h o (Some p) side x = Ok (h', mktree (root o) (n_nodes o + match raddr u with Some _ => 0 | None => 1 end), match raddr u with Some c => c | None => next h end)) /\
        msize (put_root (next h) x u) = msize u + (match raddr u with Some _ => 0 | None => 1 end) /\
        (exists par', cells h' p = Some (mknode y par' (if side then raddr (put_root (next h) x u) else raddr l) (if side then raddr r else raddr (put_root (next h) x u)) d) /\ par' = par) /\
        holds h' (S d) (put_root (next h) x u) /\ parents_ok h' (Some p) (put_root (next h) x u) /\ holds h' (S d) v /\ parents_ok h' (Some p) v /\ sane h' /\
        (forall b, b <> next h -> b <> p -> ~ In b (addrs u) -> cells h' b = cells h b)).
    { intros u v s Eu Ev Es. subst s.
      assert (Hu : holds h (S d) u /\ parents_ok h (Some p) u /\ ~ In p (addrs u) /\ NoDup (addrs u) /\ (forall z, In z (addrs u) -> z < next h)) by (destruct side; subst u; auto).
      assert (Hv : holds h (S d) v /\ parents_ok h (Some p) v /\ ~ In p (addrs v) /\ (forall z, In z (addrs v) -> z < next h /\ ~ In z (addrs u))).
      { destruct side; subst u v; repeat split; auto; try (now apply Br); try (now apply Bl). intros K. exact (N5 z K H). }
      destruct Hu as (U1 & U2 & U3 & U4 & U5). destruct Hv as (V1 & V2 & V3 & V4).
      destruct u as [|c z u1 u2]; cbn [raddr put_root].
      - (* new node *)
        eexists. split.
        { intros o. unfold push_child. rewrite (deref_ok _ _ _ Eb). cbn [bind nleft nright]. assert (Ec0 : (if side then raddr l else raddr r) = None) by (destruct side; rewrite <- Eu; reflexivity). rewrite Ec0.
          unfold alloc. cbn [ndata nparent nleft nright ndepth]. rewrite Nat.add_1_r. reflexivity. }
        split; [reflexivity|]. split; [|split; [|split; [|split; [|split; [|split]]]]].
        + exists par. split; [|reflexivity]. cbn [store cells]. rewrite Nat.eqb_refl. destruct side; reflexivity.
        + cbn [holds raddr]. split; [|now split]. exists (Some p). cbn [store cells]. destruct (Nat.eqb_spec (next h) p); [lia|]. now rewrite Nat.eqb_refl.
        + cbn [parents_ok]. split; [|now split]. eexists. cbn [store cells]. destruct (Nat.eqb_spec (next h) p); [lia|]. rewrite Nat.eqb_refl. split; reflexivity.
        + eapply holds_frame; [|exact V1]. intros z Hz. cbn [store cells]. destruct (V4 z Hz). destruct (Nat.eqb_spec z p); [subst; contradiction|]. destruct (Nat.eqb_spec z (next h)); [lia|reflexivity].
        + eapply parents_frame; [|exact V2]. intros z Hz. cbn [store cells]. destruct (V4 z Hz). destruct (Nat.eqb_spec z p); [subst; contradiction|]. destruct (Nat.eqb_spec z (next h)); [lia|reflexivity].
        + intros z Hz. cbn in *. destruct (Nat.eqb_spec z p); [lia|]. destruct (Nat.eqb_spec z (next h)); [lia|]. apply Hs. lia.
        + intros z Z1 Z2 _. cbn [store cells]. destruct (Nat.eqb_spec z p); [contradiction|]. destruct (Nat.eqb_spec z (next h)); [contradiction|reflexivity].
      - (* existing child *)
        cbn [holds] in U1. destruct U1 as ((qc & Ec) & U1 & U1'). cbn [parents_ok] in U2. destruct U2 as ((nc & Enc & Epc) & U2 & U2'). rewrite Ec in Enc. injection Enc as <-. cbn [nparent] in Epc. subst qc.
        cbn [addrs] in U3, U4. apply NoDup_node in U4 as (W1 & W2 & W3 & W4 & W5). assert (Nc : c <> p) by (intros ->; apply U3; now left).
        eexists. split.
        { intros o. unfold push_child. rewrite (deref_ok _ _ _ Eb). cbn [bind nleft nright]. assert (Ec0 : (if side then raddr l else raddr r) = Some c) by (destruct side; rewrite <- Eu; reflexivity). rewrite Ec0.
          rewrite (deref_ok _ _ _ Ec). cbn [bind nparent nleft nright ndepth]. rewrite Nat.add_0_r. destruct o; reflexivity. }
        split; [cbn; lia|]. split; [|split; [|split; [|split; [|split; [|split]]]]].
        + exists par. split; [|reflexivity]. cbn [store cells]. destruct (Nat.eqb_spec p c); [congruence|]. rewrite Eb. destruct side; cbn in *; rewrite <- Eu; reflexivity.
        + cbn [holds]. split; [exists (Some p); cbn [store cells]; now rewrite Nat.eqb_refl|].
          split; (eapply holds_frame; [|eassumption]); intros w Hw; cbn [store cells]; (destruct (Nat.eqb_spec w c); [subst; contradiction|reflexivity]).
        + cbn [parents_ok]. split; [eexists; cbn [store cells]; rewrite Nat.eqb_refl; split; reflexivity|].
          split; (eapply parents_frame; [|eassumption]); intros w Hw; cbn [store cells]; (destruct (Nat.eqb_spec w c); [subst; contradiction|reflexivity]).
        + eapply holds_frame; [|exact V1]. intros w Hw. cbn [store cells]. destruct (V4 w Hw) as [_ K]. destruct (Nat.eqb_spec w c); [subst; exfalso; apply K; now left|reflexivity].
        + eapply parents_frame; [|exact V2]. intros w Hw. cbn [store cells]. destruct (V4 w Hw) as [_ K]. destruct (Nat.eqb_spec w c); [subst; exfalso; apply K; now left|reflexivity].
        + intros w Hw. cbn in *. destruct (Nat.eqb_spec w c) as [->|]; [|now apply Hs]. specialize (U5 c (or_introl eq_refl)). lia.
        + intros w Z1 Z2 Z3. cbn [store cells]. destruct (Nat.eqb_spec w c); [subst; exfalso; apply Z3; now left|reflexivity]. }
    destruct (G (if side then l else r) (if side then r else l) side eq_refl eq_refl eq_refl) as (h' & A1 & A2 & (par' & A3 & ->) & A4 & A5 & A6 & A7 & A8 & A9).
    exists h'. split; [exact A1|]. split; [destruct side; cbn [msize]; rewrite A2; lia|]. split; [|split; [|split]].
    + destruct side; cbn [holds]; (split; [exists par; exact A3|]); auto.
    + destruct side; cbn [parents_ok]; (split; [eexists; split; [exact A3|reflexivity]|]); auto.
    + exact A8.
    + intros z Z1 Z2. cbn [addrs] in Z2. apply A9; [exact Z1|intros ->; apply Z2; now left|]. intros K. apply Z2. right. apply in_or_app. destruct side; auto.
  - (* below *)
    destruct Hin as [Hin|Hin]; [congruence|]. apply in_app_or in Hin as [Hin|Hin].
    + destruct (IHl h (S d) (Some b) p Hs N3 Hl Pl Hin) as (h' & A1 & A2 & A3 & A4 & A5 & A6).
      assert (Ch : child_at side p r = None) by (destruct (child_at side p r) eqn:E; [|reflexivity]; apply child_in in E as [E _]; exfalso; exact (N5 p Hin E)).
      assert (E : match child_at side p l with Some c => Some c | None => child_at side p r end = child_at side p l) by (destruct (child_at side p l); auto). rewrite E.
      rewrite (put_id side p (next h) x r) by (apply N5; exact Hin).
      exists h'. split; [exact A1|]. split; [cbn [msize]; rewrite A2; lia|]. split; [|split; [|split]].
      * cbn [holds]. rewrite put_raddr. split; [exists par; rewrite A6; [exact Eb|lia|exact N1]|]. split; [exact A3|]. eapply holds_frame; [|exact Hr]. intros z Hz. apply A6; [specialize (Br z Hz); lia|]. intros K. exact (N5 z K Hz).
      * cbn [parents_ok]. split; [eexists; rewrite A6; [split; [exact Eb|reflexivity]|lia|exact N1]|]. split; [exact A4|]. eapply parents_frame; [|exact Pr]. intros z Hz. apply A6; [specialize (Br z Hz); lia|]. intros K. exact (N5 z K Hz).
      * exact A5.
      * intros z Z1 Z2. apply A6; [exact Z1|]. intros K. apply Z2. cbn. right. apply in_or_app. now left.
    + destruct (IHr h (S d) (Some b) p Hs N4 Hr Pr Hin) as (h' & A1 & A2 & A3 & A4 & A5 & A6).
      assert (Np : ~ In p (addrs l)) by (intros K; exact (N5 p K Hin)).
      assert (Ch : child_at side p l = None) by (destruct (child_at side p l) eqn:E; [|reflexivity]; apply child_in in E as [E _]; contradiction). rewrite Ch.
      rewrite (put_id side p (next h) x l) by exact Np.
      exists h'. split; [exact A1|]. split; [cbn [msize]; rewrite A2; lia|]. split; [|split; [|split]].
      * cbn [holds]. rewrite put_raddr. split; [exists par; rewrite A6; [exact Eb|lia|exact N2]|]. split; [|exact A3]. eapply holds_frame; [|exact Hl]. intros z Hz. apply A6; [specialize (Bl z Hz); lia|]. exact (N5 z Hz).
      * cbn [parents_ok]. split; [eexists; rewrite A6; [split; [exact Eb|reflexivity]|lia|exact N2]|]. split; [|exact A4]. eapply parents_frame; [|exact Pl]. intros z Hz. apply A6; [specialize (Bl z Hz); lia|]. exact (N5 z Hz).
      * exact A5.
      * intros z Z1 Z2. apply A6; [exact Z1|]. intros K. apply Z2. cbn. right. apply in_or_app. now right.
Qed.
End Put.

(* push_left(pos, x) (side = true) / push_right(pos, x) (side = false), and emplace, at any node p of the tree: the child on that side gets x and keeps its
   own children; a missing child is created with no children; the returned iterator points at the child; nothing else changes *)
Theorem C123_push_child : forall T (h : heap T) o t p side x, sane h -> owns h o t -> parents_ok h None t -> In p (addrs t) ->
  exists h' o' a, push_child h o (Some p) side x = Ok (h', o', a) /\
    owns h' o' (put side p a x t) /\ parents_ok h' None (put side p a x t) /\ sane h' /\
    (forall c, child_at side p t = Some c -> a = c /\ n_nodes o' = n_nodes o) /\
    (child_at side p t = None -> ~ In a (addrs t) /\ n_nodes o' = S (n_nodes o)) /\
    child_at side p (put side p a x t) = Some a /\
    (forall b, b <> a -> ~ In b (addrs t) -> cells h' b = cells h b).
Proof.
  intros T h o t p side x Hs (R & N & ND & H) Hp Hin. destruct (put_ok side x t h 0 None p Hs ND H Hp Hin) as (h' & A1 & A2 & A3 & A4 & A5 & A6).
  exists h', (mktree (root o) (n_nodes o + match child_at side p t with Some _ => 0 | None => 1 end)), (new_addr side p t (next h)). split; [apply A1|].
  assert (Fresh : ~ In (next h) (addrs t)) by (intros K; pose proof (sane_lt _ _ _ _ Hs H K); lia).
  assert (E : put side p (new_addr side p t (next h)) x t = put side p (next h) x t).
  { unfold new_addr. destruct (child_at side p t) as [c|] eqn:Ec; [|reflexivity]. generalize (next h). intros a. revert c Ec ND. clear.
    assert (RI : forall (u : mtree T) c, raddr u = Some c -> put_root c x u = put_root a x u) by (intros [|e z u v] c; cbn; [discriminate|reflexivity]).
    induction t as [|b y l IHl r IHr]; intros c; cbn [child_at put addrs]; [discriminate|]. intros Ec ND. apply NoDup_node in ND as (N1 & N2 & N3 & N4 & N5).
    destruct (b =? p); [destruct side; now rewrite (RI _ _ Ec)|].
    destruct (child_at side p l) as [c'|] eqn:El.
    - injection Ec as ->. apply child_in in El as [El _]. rewrite (IHl c eq_refl N3). rewrite !(put_id side p _ x r) by (now apply N5). reflexivity.
    - rewrite (IHr c Ec N4). apply child_in in Ec as [Ec _]. assert (~ In p (addrs l)) by (intros K; exact (N5 p K Ec)). rewrite !(put_id side p _ x l) by assumption. reflexivity. }
  rewrite E. split.
  { split; [rewrite put_raddr; exact R|]. split; [cbn [n_nodes]; rewrite A2, N; reflexivity|]. split; [now apply put_nodup|exact A3]. }
  split; [exact A4|]. split; [exact A5|]. split; [intros c Ec; unfold new_addr; rewrite Ec; cbn [n_nodes]; split; [reflexivity|lia]|].
  split; [intros Ec; unfold new_addr; rewrite Ec; cbn [n_nodes]; split; [exact Fresh|lia]|]. split.
  { unfold new_addr. generalize (next h). intros a. revert ND Hin. clear. induction t as [|b y l IHl r IHr]; cbn [child_at put addrs]; [intros _ []|]. intros ND Hin. apply NoDup_node in ND as (N1 & N2 & N3 & N4 & N5).
    destruct (Nat.eqb_spec b p) as [->|Nb].
    - assert (Q : forall u : mtree T, raddr (put_root a x u) = Some (match raddr u with Some c => c | None => a end)) by (intros [|]; reflexivity).
      destruct side; cbn [child_at]; rewrite Nat.eqb_refl; apply Q.
    - destruct Hin as [Hin|Hin]; [contradiction|]. cbn [child_at]. destruct (Nat.eqb_spec b p); [contradiction|]. apply in_app_or in Hin as [Hin|Hin].
      + specialize (IHl N3 Hin). rewrite IHl. destruct (child_at side p l); [reflexivity|]. destruct (child_at side p r) eqn:Er; [|reflexivity]. apply child_in in Er as [Er _]. exfalso. exact (N5 p Hin Er).
      + assert (Np : ~ In p (addrs l)) by (intros K; exact (N5 p K Hin)). rewrite (put_id side p _ x l Np). destruct (child_at side p l) eqn:El; [apply child_in in El as [El _]; contradiction|]. exact (IHr N4 Hin). }
  intros b B1 B2. destruct (Nat.eq_dec b (next h)) as [->|B3]; [|now apply A6].
  unfold new_addr in B1. destruct (child_at side p t) as [c|] eqn:Ec; [|contradiction].
  (* no node was created *)
  assert (G : exists h'', push_child h o (Some p) side x = Ok (h'', o, c) /\ cells h'' (next h) = cells h (next h)).
  { specialize (A1 o). unfold new_addr in A1. rewrite Ec in A1. cbn [n_nodes] in A1. rewrite Nat.add_0_r in A1. exists h'. split; [rewrite A1; destruct o; reflexivity|].
    unfold push_child in A1. destruct (deref h (Some p)) as [n| | |]; try discriminate. cbn [bind] in A1. destruct (if side then nleft n else nright n) as [c'|].
    - destruct (deref h (Some c')) as [mm| | |] eqn:Em; try discriminate. cbn [bind] in A1. injection A1 as <- _ <-. cbn [store cells]. destruct (Nat.eqb_spec (next h) c'); [|reflexivity].
      subst c'. apply child_in in Ec as [_ Ec]. contradiction.
    - unfold alloc in A1. apply (f_equal (fun r => match r with Ok (_, _, a) => a | _ => 0 end)) in A1. cbn in A1. congruence. }
  destruct G as (h'' & G1 & G2). rewrite A1 in G1. unfold new_addr in G1. rewrite Ec in G1. injection G1 as -> _. exact G2.
Qed.
(* a null position is dereferenced *)
Theorem C123_null_undefined : forall T (h : heap T) o side x, push_child h o None side x = UB.
Proof. reflexivity. Qed.

(* concrete case: root 5 with left child 3; a right child 8 is created, then replaced by 9 *)
Example C123_case : exists h o a1 a2 a3,
  (let (h0, o0) := tree_of (T := nat) empty_heap 5 in
   r1 <- push_child h0 o0 (root o0) true 3 ;; r2 <- push_child (fst (fst r1)) (snd (fst r1)) (root o0) false 8 ;;
   r3 <- push_child (fst (fst r2)) (snd (fst r2)) (root o0) false 9 ;; Ok (fst (fst r3), snd (fst r3), snd r1, snd r2, snd r3)) = Ok (h, o, a1, a2, a3) /\
  owns h o (MNode 0 5 (MNode 1 3 MLeaf MLeaf) (MNode 2 9 MLeaf MLeaf)) /\ parents_ok h None (MNode 0 5 (MNode 1 3 MLeaf MLeaf) (MNode 2 9 MLeaf MLeaf)) /\ sane h /\ a1 = 1 /\ a2 = 2 /\ a3 = 2.
Proof.
  do 5 eexists. split; [reflexivity|]. split; [split; [reflexivity|split; [reflexivity|split; [cbn; repeat constructor; cbn; lia|]]]|split; [|split; [|repeat split; reflexivity]]].
  - cbn. repeat split; eauto.
  - cbn. repeat split; eexists; split; reflexivity.
  - intros a Ha. cbn in *. destruct a as [|[|[|a]]]; try lia. reflexivity.
Qed.
Print Assumptions C123_push_child.

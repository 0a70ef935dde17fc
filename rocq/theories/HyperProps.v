(* Hyperplanes (C49, C50, C103) and the exact projection onto a mesh (C92). *)
From Verif Require Import SimplexModel SimplexProps.

(* ---- specification ---- *)
Definition orthonormal (M N : nat) (B : nat -> vec) : Prop :=
  forall a b, (a < M)%nat -> (b < M)%nat -> dot N (B a) (B b) = delta a b.
(* y = p + sum of t_k b_k *)
Definition on_plane (M N : nat) (h : hyperplane) (y : vec) : Prop :=
  exists t : nat -> R, forall r, (r < N)%nat -> y r = hp_p h r + rsum M (fun k => t k * hp_basis h k r).

(* ---- dot products ---- *)
Lemma dot_comm : forall N a b, dot N a b = dot N b a.
Proof. intros. unfold dot. apply rsum_ext. intros; lra. Qed.
Lemma dot_ext : forall N a a' b b', (forall r, (r < N)%nat -> a r = a' r) -> (forall r, (r < N)%nat -> b r = b' r) ->
  dot N a b = dot N a' b'.
Proof. intros. unfold dot. apply rsum_ext. intros i Hi. rewrite H, H0; auto. Qed.
Lemma dot_sub_l : forall N a b c, dot N (vsub a b) c = dot N a c - dot N b c.
Proof. intros. unfold dot, vsub. rewrite <- rsum_minus. apply rsum_ext. intros; lra. Qed.
Lemma dot_sub_r : forall N a b c, dot N c (vsub a b) = dot N c a - dot N c b.
Proof. intros. rewrite dot_comm, dot_sub_l, (dot_comm N a), (dot_comm N b). lra. Qed.
Lemma dot_add_l : forall N a b c, dot N (vadd a b) c = dot N a c + dot N b c.
Proof. intros. unfold dot, vadd. rewrite <- rsum_plus. apply rsum_ext. intros; lra. Qed.
Lemma dot_add_sqr : forall N a b, dot N (vadd a b) (vadd a b) = dot N a a + 2 * dot N a b + dot N b b.
Proof. intros. unfold dot, vadd. rewrite <- rsum_scal, <- !rsum_plus. apply rsum_ext. intros; lra. Qed.
Lemma dot_scale_l : forall N k a b, dot N (vscale k a) b = k * dot N a b.
Proof. intros. unfold dot, vscale. rewrite <- rsum_scal. apply rsum_ext. intros; lra. Qed.
Lemma dot_scale_r : forall N k a b, dot N a (vscale k b) = k * dot N a b.
Proof. intros. rewrite dot_comm, dot_scale_l, dot_comm. lra. Qed.
Lemma dot_rsum_l : forall N M (t : nat -> R) B c, dot N (fun r => rsum M (fun k => t k * B k r)) c = rsum M (fun k => t k * dot N (B k) c).
Proof.
  intros. unfold dot. rewrite (rsum_ext N _ (fun r => rsum M (fun k => t k * (B k r * c r)))).
  2:{ intros r Hr. rewrite <- rsum_scal_r. apply rsum_ext; intros; lra. }
  rewrite rsum_swap. apply rsum_ext. intros k Hk. now rewrite rsum_scal.
Qed.
Lemma dot_pos : forall N a, 0 <= dot N a a.
Proof. intros. unfold dot. rewrite <- (rsum_0 N). apply rsum_le. intros; nra. Qed.
Lemma dot_zero : forall N a, dot N a a = 0 -> forall r, (r < N)%nat -> a r = 0.
Proof.
  induction N as [|N IH]; intros a H r Hr; [lia|]. unfold dot in *. cbn [rsum] in H.
  assert (0 <= rsum N (fun i => a i * a i)) by (rewrite <- (rsum_0 N); apply rsum_le; intros; nra).
  assert (a N * a N = 0) by nra. destruct (Nat.eq_dec r N) as [->|]; [nra|]. apply IH; [nra|lia].
Qed.
Lemma dot_nonzero : forall N a, (exists r, (r < N)%nat /\ a r <> 0) -> 0 < dot N a a.
Proof.
  intros N a (r & Hr & Hne). destruct (dot_pos N a) as [|H]; auto. exfalso. apply Hne. eapply dot_zero; eauto.
Qed.
Lemma norm_sqr : forall N a, norm N a * norm N a = dot N a a.
Proof. intros. unfold norm. apply sqrt_sqrt. apply dot_pos. Qed.
Lemma norm_pos : forall N a, 0 < dot N a a -> 0 < norm N a.
Proof. intros. unfold norm. now apply sqrt_lt_R0. Qed.
Lemma normalized_unit : forall N a, 0 < dot N a a -> dot N (normalized N a) (normalized N a) = 1.
Proof.
  intros N a H. unfold normalized. rewrite dot_scale_l, dot_scale_r. assert (Hp := norm_pos N a H).
  rewrite <- (norm_sqr N a). field. lra.
Qed.

(* project in closed form *)
Lemma hp_project_alt : forall M N h x r, hp_project M N h x r =
  hp_p h r + rsum M (fun k => dot N (vsub x (hp_p h)) (hp_basis h k) * hp_basis h k r).
Proof.
  intros. unfold hp_project.
  rewrite (rsum_ext N _ (fun s => rsum M (fun k => (x s - hp_p h s) * hp_basis h k s * hp_basis h k r))).
  2:{ intros s Hs. rewrite <- rsum_scal_r. apply rsum_ext; intros; lra. }
  rewrite rsum_swap. rewrite Rplus_comm. f_equal. apply rsum_ext. intros k Hk. unfold dot. now rewrite <- rsum_scal_r.
Qed.
Lemma hp_residual_basis : forall M N h x, orthonormal M N (hp_basis h) -> forall k, (k < M)%nat ->
  dot N (vsub x (hp_project M N h x)) (hp_basis h k) = 0.
Proof.
  intros M N h x HO k Hk.
  rewrite (dot_ext N _ (vsub (vsub x (hp_p h)) (fun r => rsum M (fun k => dot N (vsub x (hp_p h)) (hp_basis h k) * hp_basis h k r))) _ (hp_basis h k)); auto.
  2:{ intros r Hr. unfold vsub at 1. rewrite hp_project_alt. unfold vsub. cbn. lra. }
  rewrite dot_sub_l, dot_rsum_l.
  rewrite (rsum_ext M _ (fun a => delta k a * dot N (vsub x (hp_p h)) (hp_basis h a))).
  2:{ intros a Ha. rewrite (HO a k), delta_sym by auto. lra. }
  rewrite rsum_delta_l by auto. lra.
Qed.
Lemma on_plane_diff : forall M N h y z, on_plane M N h y -> on_plane M N h z ->
  exists t, forall r, (r < N)%nat -> y r - z r = rsum M (fun k => t k * hp_basis h k r).
Proof.
  intros M N h y z (t & Ht) (u & Hu). exists (fun k => t k - u k). intros r Hr. rewrite Ht, Hu by auto.
  rewrite (rsum_ext M (fun k => (t k - u k) * hp_basis h k r) (fun k => t k * hp_basis h k r - u k * hp_basis h k r)) by (intros; lra).
  rewrite rsum_minus. lra.
Qed.
Lemma hp_residual_plane : forall M N h x, orthonormal M N (hp_basis h) -> forall y z,
  on_plane M N h y -> on_plane M N h z -> dot N (vsub x (hp_project M N h x)) (vsub y z) = 0.
Proof.
  intros M N h x HO y z Hy Hz. destruct (on_plane_diff M N h y z Hy Hz) as (t & Ht).
  rewrite dot_comm, (dot_ext N _ (fun r => rsum M (fun k => t k * hp_basis h k r)) _ (vsub x (hp_project M N h x))); auto.
  rewrite dot_rsum_l. apply rsum_zero. intros k Hk. rewrite dot_comm, hp_residual_basis by auto. lra.
Qed.
Lemma hp_project_on_plane : forall M N h x, on_plane M N h (hp_project M N h x).
Proof. intros. exists (fun k => dot N (vsub x (hp_p h)) (hp_basis h k)). intros. apply hp_project_alt. Qed.

(* C49: for every plane with an orthonormal basis (what the constructors build, below) *)
Theorem C49_project : forall M N h x, orthonormal M N (hp_basis h) ->
  on_plane M N h (hp_project M N h x) /\
  (forall y, on_plane M N h y -> forall r, (r < N)%nat -> hp_project M N h y r = y r) /\
  (forall y z, on_plane M N h y -> on_plane M N h z -> dot N (vsub x (hp_project M N h x)) (vsub y z) = 0) /\
  (forall y, on_plane M N h y -> hp_distance M N h x <= norm N (vsub x y)) /\
  (hp_distance M N h x = 0 <-> on_plane M N h x).
Proof.
  intros M N h x HO. split; [apply hp_project_on_plane|].
  assert (Hid : forall y, on_plane M N h y -> forall r, (r < N)%nat -> hp_project M N h y r = y r).
  { intros y Hy. assert (H := hp_residual_plane M N h y HO y (hp_project M N h y) Hy (hp_project_on_plane M N h y)).
    intros r Hr. assert (H' := dot_zero N _ H r Hr). unfold vsub in H'. lra. }
  split; [exact Hid|]. split; [intros; apply hp_residual_plane; auto|]. split.
  - intros y Hy. unfold hp_distance, norm. apply sqrt_le_1; try apply dot_pos.
    set (e := vsub x (hp_project M N h x)). set (u := vsub (hp_project M N h x) y).
    rewrite (dot_ext N (vsub x y) (vadd e u) (vsub x y) (vadd e u)) by (intros; unfold e, u, vadd, vsub; lra).
    rewrite dot_add_sqr.
    assert (H0 : dot N e u = 0) by (apply hp_residual_plane; auto; apply hp_project_on_plane).
    assert (H1 := dot_pos N u). lra.
  - split; intros H.
    + unfold hp_distance in H. assert (H0 : dot N (vsub x (hp_project M N h x)) (vsub x (hp_project M N h x)) = 0).
      { rewrite <- norm_sqr, H. lra. }
      destruct (hp_project_on_plane M N h x) as (t & Ht). exists t. intros r Hr. rewrite <- Ht by auto.
      assert (H' := dot_zero N _ H0 r Hr). unfold vsub in H'. lra.
    + unfold hp_distance, norm. rewrite (dot_ext N _ (fun _ => 0) _ (fun _ => 0)).
      * unfold dot. rewrite rsum_zero by (intros; lra). apply sqrt_0.
      * intros r Hr. unfold vsub. rewrite Hid by auto. lra.
      * intros r Hr. unfold vsub. rewrite Hid by auto. lra.
Qed.
(* operator() rebuilds the projection from the coordinates given by project_onto *)
Theorem C49_coordinates : forall M N h x, orthonormal M N (hp_basis h) ->
  (forall r, hp_point M h (hp_project_onto N h x) r = hp_project M N h x r) /\
  (forall t k, (k < M)%nat -> hp_project_onto N h (hp_point M h t) k = t k).
Proof.
  intros M N h x HO. split.
  - intros r. rewrite hp_project_alt. unfold hp_point, hp_project_onto. reflexivity.
  - intros t k Hk. unfold hp_project_onto.
    rewrite (dot_ext N _ (fun r => rsum M (fun k => t k * hp_basis h k r)) _ (hp_basis h k)); auto.
    2:{ intros r Hr. unfold vsub, hp_point. lra. }
    rewrite dot_rsum_l, (rsum_ext M _ (fun a => delta k a * t a)).
    2:{ intros a Ha. rewrite (HO a k), delta_sym by auto. lra. }
    now rewrite rsum_delta_l.
Qed.

(* ---- the constructors ---- *)
Lemma normalized_span : forall N a, 0 < dot N a a -> forall r, a r = norm N a * normalized N a r.
Proof. intros N a H r. unfold normalized, vscale. assert (Hp := norm_pos N a H). field. lra. Qed.

Theorem C49_line : forall N x1 x2, 0 < dot N (vsub x2 x1) (vsub x2 x1) ->
  orthonormal 1 N (hp_basis (hp_line N x1 x2)) /\ on_plane 1 N (hp_line N x1 x2) x1 /\ on_plane 1 N (hp_line N x1 x2) x2.
Proof.
  intros N x1 x2 H. split; [|split].
  - intros [|] [|] Ha Hb; try lia. unfold hp_line. cbn [hp_basis]. now apply normalized_unit.
  - exists (fun _ => 0). intros r Hr. cbn. lra.
  - exists (fun _ => norm N (vsub x2 x1)). intros r Hr. cbn [rsum hp_line hp_p hp_basis].
    rewrite Rplus_0_l, <- normalized_span by auto. unfold vsub. lra.
Qed.

(* three points are not collinear *)
Definition independent3 (a b : vec) : Prop := 0 < dot 3 (cross a b) (cross a b).
Lemma cross_orth : forall a b, dot 3 (cross a b) a = 0 /\ dot 3 (cross a b) b = 0.
Proof. intros. unfold dot, cross. cbn. split; lra. Qed.
Lemma independent3_first : forall a b, independent3 a b -> 0 < dot 3 a a.
Proof.
  intros a b H. destruct (dot_pos 3 a) as [|H0]; auto. exfalso. symmetry in H0.
  assert (Hz := dot_zero 3 a H0). unfold independent3, dot, cross in H. cbn in H.
  rewrite (Hz 0%nat), (Hz 1%nat), (Hz 2%nat) in H by lia. lra.
Qed.
Lemma independent3_gs : forall a b k, independent3 a b -> 0 < dot 3 (vsub b (vscale k a)) (vsub b (vscale k a)).
Proof.
  intros a b k H. destruct (dot_pos 3 (vsub b (vscale k a))) as [|H0]; auto. exfalso. symmetry in H0.
  assert (Hz := dot_zero 3 _ H0). assert (H1 := Hz 0%nat ltac:(lia)). assert (H2 := Hz 1%nat ltac:(lia)). assert (H3 := Hz 2%nat ltac:(lia)).
  unfold vsub, vscale in H1, H2, H3. unfold independent3, dot, cross in H. cbn in H.
  replace (b 0%nat) with (k * a 0%nat) in H by lra. replace (b 1%nat) with (k * a 1%nat) in H by lra.
  replace (b 2%nat) with (k * a 2%nat) in H by lra. lra.
Qed.

Theorem C49_plane : forall x1 x2 x3, independent3 (vsub x2 x1) (vsub x3 x1) ->
  let h := hp_plane x1 x2 x3 in
  orthonormal 2 3 (hp_basis h) /\ on_plane 2 3 h x1 /\ on_plane 2 3 h x2 /\ on_plane 2 3 h x3.
Proof.
  intros x1 x2 x3 H h. set (a := vsub x2 x1) in *. set (b := vsub x3 x1) in *.
  assert (Ha := independent3_first a b H).
  set (b0 := normalized 3 a). set (w := vsub b (orthogonal_project 3 b b0)).
  assert (Hu0 : dot 3 b0 b0 = 1) by (now apply normalized_unit).
  assert (Hw : 0 < dot 3 w w).
  { assert (E : forall r, w r = vsub b (vscale (dot 3 b b0 / dot 3 b0 b0 * / norm 3 a) a) r).
    { intros r. unfold w, vsub, orthogonal_project, vscale, b0, normalized, vscale. lra. }
    rewrite (dot_ext 3 w (vsub b (vscale (dot 3 b b0 / dot 3 b0 b0 * / norm 3 a) a)) w (vsub b (vscale (dot 3 b b0 / dot 3 b0 b0 * / norm 3 a) a))) by auto.
    now apply independent3_gs. }
  set (b1 := normalized 3 w).
  assert (Hu1 : dot 3 b1 b1 = 1) by (now apply normalized_unit).
  assert (H01 : dot 3 b0 b1 = 0).
  { unfold b1, normalized. rewrite dot_scale_r. unfold w. rewrite dot_sub_r. unfold orthogonal_project.
    rewrite dot_scale_r, Hu0, (dot_comm 3 b0 b). field. assert (Hn := norm_pos 3 w Hw). unfold w, orthogonal_project in Hn.
    rewrite Hu0 in Hn. lra. }
  split; [|split; [|split]].
  - intros [|[|]] [|[|]] Hx Hy; try lia; cbn [hp_basis h hp_plane]; change (normalized 3 (vsub x2 x1)) with b0;
      change (normalized 3 (vsub (vsub x3 x1) (orthogonal_project 3 (vsub x3 x1) b0))) with b1; unfold delta; cbn [Nat.eqb]; auto.
    now rewrite dot_comm.
  - exists (fun _ => 0). intros r Hr. cbn [rsum]. change (hp_p h r) with (x1 r). lra.
  - exists (fun k => match k with O => norm 3 a | _ => 0 end). intros r Hr. cbn [rsum]. change (hp_p h r) with (x1 r). change (hp_basis h 0 r) with (b0 r). change (hp_basis h 1 r) with (b1 r).
    unfold b0. rewrite <- normalized_span by auto. unfold a, vsub. lra.
  - exists (fun k => match k with O => dot 3 b b0 | _ => norm 3 w end). intros r Hr. cbn [rsum]. change (hp_p h r) with (x1 r). change (hp_basis h 0 r) with (b0 r). change (hp_basis h 1 r) with (b1 r).
    unfold b1. rewrite <- normalized_span by auto. unfold w at 1, vsub at 1, orthogonal_project, vscale. rewrite Hu0. unfold b, vsub. lra.
Qed.

(* modified Gram-Schmidt *)
Inductive span (N : nat) (l : list vec) : vec -> Prop :=
| span_0 : span N l (fun _ => 0)
| span_in : forall v, In v l -> span N l v
| span_add : forall u v, span N l u -> span N l v -> span N l (vadd u v)
| span_scale : forall k v, span N l v -> span N l (vscale k v)
| span_ext : forall u v, (forall r, (r < N)%nat -> u r = v r) -> span N l u -> span N l v.
Definition orthonormal_list (N : nat) (l : list vec) : Prop :=
  forall i j u v, nth_error l i = Some u -> nth_error l j = Some v -> dot N u v = delta i j.
(* linear independence: no column is a combination of the preceding ones *)
Definition independent (N : nat) (cols : list vec) : Prop :=
  forall pre v post, cols = pre ++ v :: post -> ~ span N pre v.

Lemma span_sub : forall N l u v, span N l u -> span N l v -> span N l (vsub u v).
Proof.
  intros N l u v Hu Hv. apply (span_ext N l (vadd u (vscale (-1) v))).
  - intros. unfold vadd, vscale, vsub. lra.
  - apply span_add; auto. now apply span_scale.
Qed.
Lemma span_trans : forall N l l', (forall v, In v l -> span N l' v) -> forall v, span N l v -> span N l' v.
Proof. intros N l l' H v Hv. induction Hv; [constructor|auto|now apply span_add|now apply span_scale|eapply span_ext; eauto]. Qed.

(* one column: orthogonal to the columns done, and differing from v by an element of their span *)
Lemma mgs_column_spec : forall N done v, orthonormal_list N done ->
  (forall b, In b done -> dot N (mgs_column N done v) b = 0) /\
  span N done (vsub v (mgs_column N done v)).
Proof.
  intros N done v HO. unfold mgs_column.
  assert (G : forall post pre w, done = pre ++ post -> (forall b, In b pre -> dot N w b = 0) ->
     (forall b, In b done -> dot N (fold_left (fun w b => vsub w (orthogonal_project N w b)) post w) b = 0) /\
     span N done (vsub w (fold_left (fun w b => vsub w (orthogonal_project N w b)) post w))).
  { induction post as [|x post IH]; intros pre w E Hw; cbn [fold_left].
    - rewrite app_nil_r in E. subst pre. split; [auto|]. apply (span_ext N done (fun _ => 0)); [intros; unfold vsub; lra|constructor].
    - set (w' := vsub w (orthogonal_project N w x)).
      assert (Hx : nth_error done (length pre) = Some x).
      { rewrite E, nth_error_app2, Nat.sub_diag by lia. reflexivity. }
      assert (Hxx : dot N x x = 1) by (rewrite (HO _ _ x x Hx Hx); apply delta_same).
      destruct (IH (pre ++ [x]) w') as [H1 H2].
      { rewrite <- app_assoc. exact E. }
      { intros b Hb. apply in_app_or in Hb. unfold w', orthogonal_project. rewrite dot_sub_l, dot_scale_l, Hxx.
        destruct Hb as [Hb|[<-|[]]].
        - destruct (In_nth_error _ _ Hb) as (i & Hi). rewrite (Hw b Hb).
          assert (Hlt : (i < length pre)%nat) by (apply nth_error_Some; congruence).
          assert (Hi' : nth_error done i = Some b) by (rewrite E, nth_error_app1; auto).
          rewrite (HO _ _ x b Hx Hi'), delta_other by lia. lra.
        - rewrite Hxx. field. }
      split; [exact H1|]. apply (span_ext N done (vadd (vsub w w') (vsub w' (fold_left (fun w b => vsub w (orthogonal_project N w b)) post w')))).
      { intros r Hr. unfold vadd, vsub. lra. }
      apply span_add; auto. apply (span_ext N done (vscale (dot N w x / dot N x x) x)).
      { intros r Hr. unfold w', vsub, orthogonal_project. lra. }
      apply span_scale, span_in. eapply nth_error_In; eauto. }
  destruct (G done [] v eq_refl) as [H1 H2]; [intros b []|]. auto.
Qed.
Lemma mgs_spec_gen : forall N cols done pre, orthonormal_list N done -> length done = length pre ->
  (forall v, span N done v <-> span N pre v) -> independent N (pre ++ cols) ->
  let res := mgs N done cols in
  length res = length (pre ++ cols) /\ orthonormal_list N res /\ (forall v, span N res v <-> span N (pre ++ cols) v).
Proof.
  intros N cols. induction cols as [|v cols IH]; intros done pre HO Hl Hs Hi; cbn [mgs].
  { rewrite app_nil_r. auto. }
  set (w := mgs_column N done v). destruct (mgs_column_spec N done v HO) as [Ho Hd]. fold w in Ho, Hd.
  assert (Hw : 0 < dot N w w).
  { destruct (dot_pos N w) as [|H0]; auto. exfalso. symmetry in H0. apply (Hi pre v cols eq_refl). apply Hs.
    apply (span_ext N done (vsub v w)); auto. intros r Hr. unfold vsub. rewrite (dot_zero N w H0 r Hr). lra. }
  set (u := vscale (/ norm N w) w).
  assert (Hu : dot N u u = 1) by (apply (normalized_unit N w Hw)).
  replace (pre ++ v :: cols) with ((pre ++ [v]) ++ cols) in * by (rewrite <- app_assoc; reflexivity).
  apply (IH (done ++ [u]) (pre ++ [v])); auto.
  - intros i j a b Ha Hb. destruct (Nat.lt_ge_cases i (length done)), (Nat.lt_ge_cases j (length done)).
    + rewrite nth_error_app1 in Ha, Hb by auto. eapply HO; eauto.
    + rewrite nth_error_app1 in Ha by auto. rewrite nth_error_app2 in Hb by auto.
      destruct (j - length done)%nat as [|m] eqn:Ej; [|destruct m; discriminate]. injection Hb as <-.
      rewrite dot_comm. unfold u. rewrite dot_scale_l, Ho by (eapply nth_error_In; eauto). rewrite delta_other by lia. lra.
    + rewrite nth_error_app2 in Ha by auto. rewrite nth_error_app1 in Hb by auto.
      destruct (i - length done)%nat as [|m] eqn:Ej; [|destruct m; discriminate]. injection Ha as <-.
      unfold u. rewrite dot_scale_l, Ho by (eapply nth_error_In; eauto). rewrite delta_other by lia. lra.
    + rewrite nth_error_app2 in Ha, Hb by auto.
      destruct (i - length done)%nat as [|m] eqn:Ei; [|destruct m; discriminate].
      destruct (j - length done)%nat as [|m] eqn:Ej; [|destruct m; discriminate]. injection Ha as <-. injection Hb as <-.
      replace j with i by lia. rewrite delta_same. exact Hu.
  - rewrite !app_length, Hl. reflexivity.
  - assert (Hn := norm_pos N w Hw).
    assert (Hinc : forall x, In x done -> span N (done ++ [u]) x) by (intros; apply span_in, in_or_app; auto).
    assert (Hinc' : forall x, In x pre -> span N (pre ++ [v]) x) by (intros; apply span_in, in_or_app; auto).
    intros x. split; apply span_trans; intros y Hy; apply in_app_or in Hy; destruct Hy as [Hy|[<-|[]]].
    + apply (span_trans N pre _ Hinc'). apply Hs. now apply span_in.
    + unfold u. apply span_scale. apply (span_ext N _ (vsub v (vsub v w))); [intros; unfold vsub; lra|].
      apply span_sub; [apply span_in, in_or_app; right; cbn; auto|]. apply (span_trans N pre _ Hinc'). now apply Hs.
    + apply (span_trans N done _ Hinc). apply Hs. now apply span_in.
    + apply (span_ext N _ (vadd (vscale (norm N w) u) (vsub v w))).
      { intros r Hr. unfold vadd, vsub, u, vscale. field. lra. }
      apply span_add; [apply span_scale, span_in, in_or_app; right; cbn; auto|]. now apply (span_trans N done _ Hinc).
Qed.
(* the general constructor: an orthonormal basis of the space spanned by the (independent) edges *)
Theorem C49_gram_schmidt : forall N cols, independent N cols ->
  let res := mgs N [] cols in
  length res = length cols /\
  orthonormal (length cols) N (fun k => nth k res (fun _ => 0)) /\
  (forall v, span N res v <-> span N cols v).
Proof.
  intros N cols Hi res. destruct (mgs_spec_gen N cols [] []) as (H1 & H2 & H3); auto.
  - intros [|] j u v H; discriminate.
  - tauto.
  - fold res in H1, H2, H3. cbn in H1, H3. split; auto. split; auto.
    intros a b Ha Hb. apply (H2 a b); apply nth_error_nth'; lia.
Qed.

(* ---- C50: normals ---- *)
Theorem C50_plane : forall x1 x2 x3, independent3 (vsub x2 x1) (vsub x3 x1) ->
  let h := hp_plane x1 x2 x3 in
  norm 3 (hp_normal h) = 1 /\ forall y z, on_plane 2 3 h y -> on_plane 2 3 h z -> dot 3 (hp_normal h) (vsub y z) = 0.
Proof.
  intros x1 x2 x3 H h. set (a := vsub x2 x1) in *. set (b := vsub x3 x1) in *. split.
  - unfold norm. cbn [h hp_plane hp_normal]. fold a b. rewrite normalized_unit by auto. apply sqrt_1.
  - intros y z Hy Hz. destruct (on_plane_diff 2 3 h y z Hy Hz) as (t & Ht).
    rewrite dot_comm, (dot_ext 3 _ (fun r => rsum 2 (fun k => t k * hp_basis h k r)) _ (hp_normal h)); auto.
    rewrite dot_rsum_l. destruct (cross_orth a b) as [Ca Cb].
    assert (Na : dot 3 (normalized 3 a) (hp_normal h) = 0).
    { unfold h, hp_plane. cbn [hp_normal]. fold a b. unfold normalized. rewrite dot_scale_l, dot_scale_r, dot_comm, Ca. lra. }
    assert (Nb : dot 3 b (hp_normal h) = 0).
    { unfold h, hp_plane. cbn [hp_normal]. fold a b. unfold normalized. rewrite dot_scale_r, dot_comm, Cb. lra. }
    cbn [rsum]. cbn [h hp_plane hp_basis]. fold a b h.
    change (dot 3 (normalized 3 a) (hp_normal h)) with (dot 3 (normalized 3 a) (hp_normal h)).
    fold h in Na, Nb |- *. rewrite Na.
    set (w := vsub b (orthogonal_project 3 b (normalized 3 a))).
    replace (dot 3 (normalized 3 w) (hp_normal h)) with 0; [lra|].
    unfold normalized at 1. rewrite dot_scale_l. unfold w at 2. rewrite dot_sub_l, Nb. unfold orthogonal_project.
    rewrite dot_scale_l, Na. lra.
Qed.
(* lines: the normal is orthogonal to the line only for directions with |t0| = |t1|, and has the length of
   the segment (N = 2) *)
Theorem C50_line_partial : forall x1 x2 : vec,
  let t := vsub x2 x1 in let h := hp_line 2 x1 x2 in
  (dot 2 (hp_normal h) t = 0 <-> Rabs (t 0%nat) = Rabs (t 1%nat)) /\
  (dot 3 (hp_normal (hp_line 3 x1 x2)) t = 0 <-> Rabs (t 0%nat) = Rabs (t 1%nat)) /\
  norm 2 (hp_normal h) = norm 2 t.
Proof.
  intros x1 x2 t h.
  assert (G : - t 0%nat * t 0%nat + t 1%nat * t 1%nat = 0 <-> Rabs (t 0%nat) = Rabs (t 1%nat)).
  { split; intros H.
    - unfold Rabs. destruct (Rcase_abs (t 0%nat)), (Rcase_abs (t 1%nat)); nra.
    - unfold Rabs in H. destruct (Rcase_abs (t 0%nat)), (Rcase_abs (t 1%nat)); nra. }
  split; [|split].
  - rewrite <- G. unfold dot. cbn. fold t. split; intros; lra.
  - rewrite <- G. unfold dot. cbn. fold t. split; intros; lra.
  - unfold norm. f_equal. unfold dot. cbn. fold t. lra.
Qed.
(* the line from (0,0) to (2,0): normal (-2, 0), along the line and not of unit length *)
Theorem C50_line_refuted : exists x1 x2 : vec, 0 < dot 2 (vsub x2 x1) (vsub x2 x1) /\
  dot 2 (hp_normal (hp_line 2 x1 x2)) (vsub x2 x1) <> 0 /\ norm 2 (hp_normal (hp_line 2 x1 x2)) <> 1.
Proof.
  exists (fun _ => 0), (fun r => match r with O => 2 | _ => 0 end).
  split; [unfold dot, vsub; cbn; lra|]. split; [unfold dot, vsub; cbn; unfold vsub; lra|].
  intros H. assert (H' := norm_sqr 2 (hp_normal (hp_line 2 (fun _ : nat => 0) (fun r : nat => match r with O => 2 | S _ => 0 end)))).
  rewrite H in H'. unfold dot in H'. cbn in H'. unfold vsub in H'. lra.
Qed.
Lemma trivial_kernel : forall M N B (x : nat -> R), orthonormal M N B ->
  (forall r, (r < N)%nat -> rsum M (fun k => x k * B k r) = 0) -> forall k, (k < M)%nat -> x k = 0.
Proof.
  intros M N B x HO Hx k Hk.
  assert (H : dot N (fun r => rsum M (fun k => x k * B k r)) (B k) = 0).
  { rewrite (dot_ext N _ (fun _ => 0) _ (B k)); auto. unfold dot. apply rsum_zero. intros; lra. }
  rewrite dot_rsum_l, (rsum_ext M _ (fun a => delta k a * x a)) in H.
  2:{ intros a Ha. rewrite (HO a k), delta_sym by auto. lra. }
  rewrite rsum_delta_l in H; auto.
Qed.
(* M > 2 [hyperplane.h:66-80]: the code takes as normal an element x of the kernel of the computed basis, not of its transpose; whatever the
   points, its length is zero *)
Theorem C50_general_refuted : forall N cols (x : nat -> R), independent N cols ->
  (forall r, (r < N)%nat -> rsum (length cols) (fun k => x k * nth k (mgs N [] cols) (fun _ => 0) r) = 0) ->
  norm (length cols) x = 0.
Proof.
  intros N cols x Hi Hx. destruct (C49_gram_schmidt N cols Hi) as (_ & HO & _).
  assert (Z := trivial_kernel _ N _ x HO Hx). unfold norm, dot. rewrite rsum_zero, sqrt_0; [reflexivity|]. intros k Hk. rewrite Z by auto. lra.
Qed.

(* ---- C103: eval of a plane is the signed distance ---- *)
Lemma orth_both : forall a b e, dot 3 e a = 0 -> dot 3 e b = 0 -> forall i, (i < 3)%nat ->
  dot 3 (cross a b) (cross a b) * e i = dot 3 e (cross a b) * cross a b i.
Proof.
  intros a b e Ha Hb i Hi. unfold dot in *. cbn [rsum] in *.
  assert (C0 : e 1%nat * cross a b 2%nat - e 2%nat * cross a b 1%nat = 0).
  { transitivity (a 0%nat * (0 + e 0%nat * b 0%nat + e 1%nat * b 1%nat + e 2%nat * b 2%nat)
                  - b 0%nat * (0 + e 0%nat * a 0%nat + e 1%nat * a 1%nat + e 2%nat * a 2%nat)); [cbn; ring|rewrite Ha, Hb; ring]. }
  assert (C1 : e 2%nat * cross a b 0%nat - e 0%nat * cross a b 2%nat = 0).
  { transitivity (a 1%nat * (0 + e 0%nat * b 0%nat + e 1%nat * b 1%nat + e 2%nat * b 2%nat)
                  - b 1%nat * (0 + e 0%nat * a 0%nat + e 1%nat * a 1%nat + e 2%nat * a 2%nat)); [cbn; ring|rewrite Ha, Hb; ring]. }
  assert (C2 : e 0%nat * cross a b 1%nat - e 1%nat * cross a b 0%nat = 0).
  { transitivity (a 2%nat * (0 + e 0%nat * b 0%nat + e 1%nat * b 1%nat + e 2%nat * b 2%nat)
                  - b 2%nat * (0 + e 0%nat * a 0%nat + e 1%nat * a 1%nat + e 2%nat * a 2%nat)); [cbn; ring|rewrite Ha, Hb; ring]. }
  set (n0 := cross a b 0%nat) in *. set (n1 := cross a b 1%nat) in *. set (n2 := cross a b 2%nat) in *.
  apply Rminus_diag_uniq. destruct i as [|[|[|]]]; try lia.
  - transitivity (n1 * (e 0%nat * n1 - e 1%nat * n0) - n2 * (e 2%nat * n0 - e 0%nat * n2)); [change (cross a b 0%nat) with n0; ring|rewrite C1, C2; ring].
  - transitivity (n2 * (e 1%nat * n2 - e 2%nat * n1) - n0 * (e 0%nat * n1 - e 1%nat * n0)); [change (cross a b 1%nat) with n1; ring|rewrite C0, C2; ring].
  - transitivity (n0 * (e 2%nat * n0 - e 0%nat * n2) - n1 * (e 1%nat * n2 - e 2%nat * n1)); [change (cross a b 2%nat) with n2; ring|rewrite C0, C1; ring].
Qed.
Theorem C103_plane_eval : forall x1 x2 x3, independent3 (vsub x2 x1) (vsub x3 x1) -> forall x,
  let h := hp_plane x1 x2 x3 in
  Rabs (hp_eval 3 h x) = hp_distance 2 3 h x /\ (hp_eval 3 h x = 0 <-> on_plane 2 3 h x).
Proof.
  intros x1 x2 x3 H x h.
  destruct (C49_plane x1 x2 x3 H) as (HO & P1 & P2 & P3). fold h in HO, P1, P2, P3.
  destruct (C49_project 2 3 h x HO) as (_ & _ & Hres & _ & Hzero).
  destruct (C50_plane x1 x2 x3 H) as [Hn Horth]. fold h in Hn, Horth.
  assert (HD : Rabs (hp_eval 3 h x) = hp_distance 2 3 h x).
  { set (e := vsub x (hp_project 2 3 h x)) in *. set (a := vsub x2 x1) in *. set (b := vsub x3 x1) in *.
    assert (Ea : dot 3 e a = 0) by (apply Hres; auto). assert (Eb : dot 3 e b = 0) by (apply Hres; auto).
    set (n := hp_normal h) in *.
    assert (Ee : hp_eval 3 h x = dot 3 e n).
    { unfold hp_eval. fold n. unfold e. rewrite dot_sub_l.
      assert (Hp := Horth (hp_project 2 3 h x) x1 (hp_project_on_plane 2 3 h x) P1). rewrite dot_sub_r in Hp.
      change (hp_offset h) with (- dot 3 x1 n). rewrite (dot_comm 3 n x1) in Hp.
      rewrite (dot_comm 3 (hp_project 2 3 h x) n), (dot_comm 3 n x). lra. }
    assert (Een : forall i, (i < 3)%nat -> e i = dot 3 e n * n i).
    { intros i Hi. assert (Ho := orth_both a b e Ea Eb i Hi). unfold n, h, hp_plane. cbn [hp_normal]. fold a b.
      unfold normalized. rewrite dot_scale_r. unfold vscale. assert (Hp := norm_pos 3 _ H).
      assert (Hs := norm_sqr 3 (cross a b)). apply (Rmult_eq_reg_l (norm 3 (cross a b) * norm 3 (cross a b))).
      2:{ rewrite Hs. unfold independent3 in H. lra. }
      rewrite Hs at 1. rewrite Ho. field. lra. }
    unfold hp_distance. fold e. unfold norm.
    replace (dot 3 e e) with (Rsqr (dot 3 e n)).
    2:{ unfold Rsqr. assert (Hnn : dot 3 n n = 1) by (rewrite <- norm_sqr, Hn; ring).
        symmetry. transitivity (dot 3 (vscale (dot 3 e n) n) (vscale (dot 3 e n) n)); [apply dot_ext; exact Een|].
        rewrite dot_scale_l, dot_scale_r, Hnn. ring. }
    rewrite sqrt_Rsqr_abs, Ee. reflexivity. }
  split; [exact HD|]. rewrite <- Hzero, <- HD. split; intros E; [rewrite E; apply Rabs_R0|].
  destruct (Req_EM_T (hp_eval 3 h x) 0); auto. apply Rabs_no_R0 in n. contradiction.
Qed.
(* the coordinate plane z = 0 *)
Example plane_example : independent3 (vsub (unit_simplex 1) (unit_simplex 0)) (vsub (unit_simplex 2) (unit_simplex 0)).
Proof. unfold independent3, dot, cross, vsub, unit_simplex, delta. cbn. lra. Qed.
Example gram_schmidt_example : independent 2 [(fun r => match r with O => 3 | _ => 4 end); (fun r => match r with O => 1 | _ => 0 end)].
Proof.
  intros pre v post E Hs. destruct pre as [|a [|b pre]]; cbn in E.
  - injection E as <- _. assert (forall u, span 2 [] u -> u 0%nat = 0) as G.
    { induction 1; auto; try (unfold vadd, vscale in *; nra). destruct H. rewrite <- H; auto. }
    apply G in Hs. lra.
  - injection E as <- <- _. assert (forall u, span 2 [fun r : nat => match r with O => 3 | S _ => 4 end] u -> u 1%nat = 4 / 3 * u 0%nat) as G.
    { induction 1; auto; try (unfold vadd, vscale in *; nra). - destruct H as [<-|[]]. lra. - rewrite <- !H; auto. }
    apply G in Hs. lra.
  - injection E as _ _ E. destruct pre; discriminate.
Qed.

(* ---- C92: the exact projection ---- *)
Lemma project_loop_spec : forall A (cands : list (A * R)) best cur,
  (project_loop cands best cur = cur /\ forall a dist, In (a, dist) cands -> best <= dist) \/
  (exists a dist, In (a, dist) cands /\ project_loop cands best cur = Some a /\ dist < best /\
     forall b dist', In (b, dist') cands -> dist <= dist').
Proof.
  intros A cands. induction cands as [|[a dist] rest IH]; intros best cur; cbn [project_loop].
  - left. split; auto. intros a dist [].
  - destruct (ltb dist best) eqn:E.
    + apply ltb_true in E. right. destruct (IH dist (Some a)) as [[H1 H2]|(b & db & Hin & Hp & Hlt & Hmin)].
      * exists a, dist. split; [now left|]. split; auto. split; auto. intros b dist' [Hb|Hb]; [injection Hb as <- <-; lra|eauto].
      * exists b, db. split; [now right|]. split; auto. split; [lra|]. intros z dz [Hz|Hz]; [injection Hz as <- <-; lra|eauto].
    + apply ltb_false in E. destruct (IH best cur) as [[H1 H2]|(b & db & Hin & Hp & Hlt & Hmin)].
      * left. split; auto. intros b db [Hb|Hb]; [injection Hb as <- <-; lra|eauto].
      * right. exists b, db. split; [now right|]. split; auto. split; auto. intros z dz [Hz|Hz]; [injection Hz as <- <-; lra|eauto].
Qed.
(* cells: any list of cells, near: the nearest point each reports, huge: the largest double *)
Theorem C92_exact_projection : forall (cell : Type) N (near : cell -> vec) (cells : list cell) (p : vec) huge, cells <> [] ->
  (forall c, In c cells -> norm N (vsub (near c) p) < huge) ->
  exists c, In c cells /\
    project_loop (map (fun c => (near c, norm N (vsub (near c) p))) cells) huge None = Some (near c) /\
    forall c', In c' cells -> norm N (vsub (near c) p) <= norm N (vsub (near c') p).
Proof.
  intros cell N near cells p huge Hne Hh.
  destruct (project_loop_spec _ (map (fun c => (near c, norm N (vsub (near c) p))) cells) huge None) as [[H1 H2]|(q & dq & Hin & Hp & Hlt & Hmin)].
  - exfalso. destruct cells as [|c cells]; [contradiction|]. specialize (Hh c (or_introl eq_refl)).
    specialize (H2 _ _ (or_introl eq_refl)). lra.
  - apply in_map_iff in Hin. destruct Hin as (c & Hc & Hin). injection Hc as <- <-. exists c. split; auto. split; auto.
    intros c' Hc'. eapply Hmin. apply in_map_iff. exists c'. split; [reflexivity|auto].
Qed.
(* a mesh without cells leaves the row unwritten *)
Example C92_empty : forall huge, project_loop (A := vec) [] huge None = None.
Proof. reflexivity. Qed.

Print Assumptions C49_project.
Print Assumptions C49_gram_schmidt.
Print Assumptions C50_plane.
(* a line: eval vanishes at the first point, and on the whole line exactly when the normal is orthogonal to it (C50) *)
Theorem C103_line_eval : forall N x1 x2, hp_eval N (hp_line N x1 x2) x1 = 0 /\
  ((forall k, hp_eval N (hp_line N x1 x2) (vadd x1 (vscale k (vsub x2 x1))) = 0) <-> dot N (hp_normal (hp_line N x1 x2)) (vsub x2 x1) = 0).
Proof.
  intros N x1 x2. set (h := hp_line N x1 x2).
  assert (E : forall x, hp_eval N h x = dot N (hp_normal h) (vsub x x1)).
  { intros x. unfold hp_eval. change (hp_offset h) with (- dot N x1 (hp_normal h)). rewrite dot_sub_r, (dot_comm N x1). ring. }
  split; [rewrite E, dot_sub_r; ring|]. assert (K : forall k, hp_eval N h (vadd x1 (vscale k (vsub x2 x1))) = k * dot N (hp_normal h) (vsub x2 x1)).
  { intros k. rewrite E, dot_sub_r, (dot_comm N _ (vadd _ _)), dot_add_l, dot_scale_l, (dot_comm N x1), (dot_comm N (vsub x2 x1)). ring. }
  split; [intros H; specialize (H 1); rewrite K in H; lra|intros H k; rewrite K, H; ring].
Qed.
Print Assumptions C103_line_eval.
Print Assumptions C103_plane_eval.
Print Assumptions C92_exact_projection.

(* Factorized sparse approximate inverse: linear_algebra/fspai.h.  Numbers are of any type F with any operations, so that the theorems
   about the sparsity pattern hold for doubles; the theorems about values take F to be the reals. *)
From Verif Require Import Base.

Section Fspai.
Variables (F : Type) (zero one : F) (add sub mul div : F -> F -> F) (opp sqrt : F -> F).
Variables (gtb geb : F -> F -> bool) (nonzero : F -> bool).       (* a > b, a >= b, a != 0 *)
Variable of_nat : nat -> F.
(* A_.coeff(i, j), and the column indices of the stored entries of row i (sparsityPattern_, 162-168) *)
Variables (n : nat) (A : nat -> nat -> F) (pattern : nat -> list nat).
(* Eigen::LLT: solve(Ak, bk) *)
Variable solve : list (list F) -> list F -> list F.
(* iteration order of std::unordered_set and std::unordered_map: any *)
Variables (order : list nat -> list nat) (order_map : list (nat * F) -> list (nat * F)).

(* find, fspai.h:142 *)
Definition mem (x : nat) (l : list nat) : bool := existsb (Nat.eqb x) l.
(* insert / emplace into a set [fspai.h:134, 157, 254-255] *)
Definition insert (x : nat) (l : list nat) : list nat := if mem x l then l else l ++ [x].
(* fspai.h:193 *)
Definition remove (x : nat) (l : list nat) : list nat := filter (fun y => negb (x =? y)) l.
(* fspai.h:118, 145 *)
Definition dot (a b : list F) : F := fold_left (fun s p => add s (mul (fst p) (snd p))) (combine a b) zero.

(* state across columns: J_ (sparsity pattern of each column), deltaPattern_ (never reset between columns) [fspai.h:54, 62-66] *)
Record state := State { patterns : list (list nat); delta : list nat; entries : list (nat * nat * F) }.

(* extractSystem(p, p, k): 99-112 *)
Definition extract_system (p : list nat) (k : nat) : list (list F) * list F :=
  (map (fun i => map (fun j => A i j) (order p)) (order p), map (fun i => A i k) (order p)).
(* updateApproximateInverse(k, bk, yk, tildeJk): 115-126 *)
Definition update_inverse (L : list F) (k : nat) (b y : list F) (p : list nat) : Res (list F) :=
  let lkk := div one (sqrt (sub (A k k) (dot b y))) in
  L1 <- upd_res L k lkk ;;
  foldM (fun L (it : nat * nat) => v <- nth_res y (snd it) ;; upd_res L (fst it) (mul (opp lkk) v)) (combine (order p) (seq 0 (length p))) L1.
(* one approximate inverse of column k for the pattern J: 195-222 *)
Definition approximate (L : list F) (k : nat) (J : list nat) : Res (list F) :=
  let p := remove k J in
  match p with
  | [] => upd_res L k (div one (sqrt (A k k)))
  | _ => let '(Ak, bk) := extract_system p k in update_inverse L k bk (solve Ak bk) p
  end.
(* selectCandidates(k), 130-138: rows of deltaPattern_, indices after k *)
Definition candidates (k : nat) (dl cand : list nat) : Res (list nat) :=
  foldM (fun c row =>
    match pattern row with
    | [] => Throw                                   (* sparsityPattern_.at(row): std::out_of_range *)
    | cols => Ok (fold_left (fun c j => if k <? j then insert j c else c) (order cols) c)
    end) (order dl) cand.
(* 144-152: the value A(j, Jk) * Lk(Jk) of the candidates not in the pattern *)
Definition eligible (k : nat) (cand J : list nat) (L : list F) : Res (list (nat * F)) :=
  mapM (fun j => v <- foldM (fun v i => l <- nth_res L i ;; Ok (add v (mul (A j i) l))) (order J) zero ;; Ok (j, v))
       (filter (fun j => negb (mem j J)) (order cand)).
(* 229-242: hatJk_ now holds tau; sum and maximum *)
Definition tau_step (acc : list (nat * F) * F * F) (p : nat * F) : list (nat * F) * F * F :=
  let t := div (mul (snd p) (snd p)) (A (fst p) (fst p)) in
  (fst (fst acc) ++ [(fst p, t)], add (snd (fst acc)) t, if gtb t (snd acc) then t else snd acc).
Definition taus (hat : list (nat * F)) : list (nat * F) * F * F := fold_left tau_step (order_map hat) ([], zero, zero).
(* 250-254: last maximum in iteration order *)
Definition find_max (h : list (nat * F)) : option (nat * F) :=
  match h with
  | [] => None
  | p :: _ => Some (fold_left (fun m q => if geb (snd q) (snd m) then q else m) h p)
  end.
(* 249-263: at most beta new indices, those above the mean *)
Fixpoint pick (beta : nat) (mean : F) (h : list (nat * F)) (J dl : list nat) : list nat * list nat :=
  match beta with
  | 0 => (J, dl)
  | S b =>
      match find_max h with
      | None => (J, dl)
      | Some m =>
          let h' := filter (fun q => negb (fst m =? fst q)) h in
          if gtb (snd m) mean then pick b mean h' (insert (fst m) J) (insert (fst m) dl) else pick b mean h' J dl
      end
  end.
(* one step of the loop over s: 187-266.  Column state: pattern, candidate set, delta pattern, column of L *)
Definition step (beta : nat) (eps : F) (k : nat) (c : list nat * list nat * list nat * list F) : Res (list nat * list nat * list nat * list F) :=
  let '(J, cand, dl, L) := c in
  match dl with
  | [] => Ok c
  | _ =>
      L1 <- approximate L k J ;;
      cand1 <- candidates k dl cand ;;
      hat <- eligible k cand1 J L1 ;;
      let '(h, s, m) := taus hat in
      if gtb m eps then
        let '(J1, dl1) := pick beta (div s (of_nat (length hat))) h J [] in Ok (J1, cand1, dl1, L1)
      else Ok (J, cand1, [], L1)
  end.
Fixpoint steps (alpha beta : nat) (eps : F) (k : nat) (c : list nat * list nat * list nat * list F) : Res (list nat * list nat * list nat * list F) :=
  match alpha with 0 => Ok c | S a => c1 <- step beta eps k c ;; steps a beta eps k c1 end.
(* column k: 181-270 *)
Definition column (alpha beta : nat) (eps : F) (s : state) (k : nat) : Res state :=
  J <- nth_res (patterns s) k ;;
  c <- steps alpha beta eps k (J, [], insert k (delta s), repeat zero n) ;;
  let '(J1, _, dl, L) := c in
  Js <- upd_res (patterns s) k J1 ;;
  Ok (State Js dl (entries s ++ map (fun p => (fst p, k, snd p)) (filter (fun p => nonzero (snd p)) (combine (seq 0 n) L)))).
(* compute(alpha, beta, epsilon): 176-271; L_ is rebuilt from the triplets *)
Definition compute (alpha beta : nat) (eps : F) (s : state) : Res state :=
  foldM (column alpha beta eps) (seq 0 n) (State (patterns s) (delta s) []).
(* constructor: 154-169: the pattern of the identity *)
Definition construct : state := State (map (fun i => [i]) (seq 0 n)) [] [].
(* getL: the value of L_(i, k) [fspai.h:86, 265-269] *)
Definition coeff (s : state) (i k : nat) : F :=
  match find (fun t => (fst (fst t) =? i) && (snd (fst t) =? k)) (entries s) with Some t => snd t | None => zero end.
End Fspai.

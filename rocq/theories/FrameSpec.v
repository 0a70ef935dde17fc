(* Specification vocabulary for block frames: histories of calls, read off without the frame. *)
From Verif Require Import Base FrameModel.

Section Spec.
Variable V : Type.
Notation mat := (mat V).

Inductive call :=
| CInsert (t k : nat) (m : mat) (flag : bool)   (* insert<t>(k, m, flag) *)
| CStack (t k : nat) (m : mat)                  (* stack<t>(k, m) *)
| CClear (k : nat).                             (* clear_dirty_bit(k) *)

(* the columns of m written one under the other *)
Definition below (m : mat) : mat :=
  Mat 1 (flat_map (fun j => flat_map (fun r => match nth_error r j with Some x => [[x]] | None => [] end) (mdata m)) (seq 0 (mcols m))).

(* the block a history leaves under (t, k): the last one inserted *)
Definition last_block (t k : nat) (h : list call) : option mat :=
  fold_left (fun o c =>
    match c with
    | CInsert t' k' m _ => if (t =? t') && (k =? k') then Some m else o
    | CStack t' k' m => if (t =? t') && (k =? k') then Some (below m) else o
    | CClear _ => o
    end) h None.
Definition inserts (k : nat) (c : call) : Prop :=
  match c with CInsert _ k' _ _ => k = k' | CStack _ k' _ => k = k' | CClear _ => False end.
(* the flag a history leaves on k *)
Definition last_flag (k : nat) (h : list call) : bool :=
  fold_left (fun o c =>
    match c with
    | CInsert _ k' _ b => if k =? k' then b else o
    | CStack _ k' _ => if k =? k' then true else o
    | CClear k' => if k =? k' then false else o
    end) h false.
(* every row of the matrix has its column count *)
Definition wf_mat (m : mat) : Prop := Forall (fun r => length r = mcols m) (mdata m).
Definition wf_call (c : call) : Prop :=
  match c with CInsert _ _ m _ => wf_mat m | CStack _ _ m => wf_mat m | CClear _ => True end.
Definition type_of (c : call) : option nat :=
  match c with CInsert t _ _ _ => Some t | CStack t _ _ => Some t | CClear _ => None end.
(* number of rows the call would insert *)
Definition height (c : call) : option nat :=
  match c with CInsert _ _ m _ => Some (length (mdata m)) | CStack _ _ m => Some (length (mdata m) * mcols m) | CClear _ => None end.

Definition exec (c : call) (f : frame V) : Res (frame V) :=
  match c with
  | CInsert t k m b => insert _ t k m b f
  | CStack t k m => stack _ t k m f
  | CClear k => clear_dirty_bit _ k f
  end.
(* a client that catches exceptions; returns the frame and the calls that did not throw *)
Fixpoint session (f : frame V) (h : list call) : Res (frame V * list call) :=
  match h with
  | [] => Ok (f, [])
  | c :: h' =>
      match exec c f with
      | Ok f' => r <- session f' h' ;; Ok (fst r, c :: snd r)
      | Throw => session f h'
      | UB => UB
      | OutOfFuel => OutOfFuel
      end
  end.

(* position of the first occurrence of x *)
Definition first_at (l : list (list V)) (x : list V) (i : nat) : Prop :=
  nth_error l i = Some x /\ forall j, j < i -> nth_error l j <> Some x.
(* u lists the distinct elements of l in the order of their first occurrence *)
Definition distinct_in_order (l u : list (list V)) : Prop :=
  NoDup u /\ (forall x, In x u <-> In x l) /\
  (forall a b x y i j, nth_error u a = Some x -> nth_error u b = Some y -> a < b ->
     first_at l x i -> first_at l y j -> i < j).
End Spec.
Arguments CInsert {V}. Arguments CStack {V}. Arguments CClear {V}.

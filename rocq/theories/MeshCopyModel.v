(* Model of the lazily built point location policy of the meshes, triangulation.h:252-260, 267 (triangles),
   474-482, 492 (tetrahedra), and of what copying, assigning, moving and
   destroying a mesh do to it.  The mesh is a value [C] (nodes, cells, tables); all that matters here of
   TreeSearch (tree_search.h:29-93) is that it keeps a tree built from the mesh it was constructed from
   and a pointer to that mesh (line 33), and that a query reads both. *)
From Verif Require Import Base.

Section Lifetime.
(* [search t c p] is the answer of a policy whose tree was built from t and whose pointer leads to c *)
Variables (C P R : Type) (search : C -> C -> P -> R).

(* a mesh object: its data, and the policy as the value the tree was built from and the address of mesh_ [triangulation.h:252-260, 267] *)
Record mesh := Mesh { content : C; policy : option (C * nat) }.
(* memory: the mesh object living at an address [the pointer mesh_ of tree_search.h:31] *)
Definition memory := nat -> option mesh.
(* the pointer mesh_ of tree_search.h:31 *)
Definition deref (h : memory) (a : nat) : Res mesh := match h a with Some m => Ok m | None => UB end.
(* the pointer mesh_ of tree_search.h:31 *)
Definition put (h : memory) (a : nat) (m : option mesh) : memory := fun b => if b =? a then m else h b.

(* triangulation.h:252-255: if (!location_policy_.has_value()) location_policy_ = LocationPolicy(this);
   return location_policy_->locate(points) *)
Definition locate (h : memory) (a : nat) (p : P) : Res (memory * R) :=
  m <- deref h a ;;
  let pol := match policy m with Some pol => pol | None => (content m, a) end in
  let h1 := put h a (Some (Mesh (content m) (Some pol))) in
  target <- deref h1 (snd pol) ;;                                    (* mesh_->range(), mesh_->cell(id) *)
  Ok (h1, search (fst pol) (content target) p).

(* a client of triangulation.h:252-260 and of the implicit copy, move and destructor of the mesh *)
Inductive op :=
  | New (a : nat) (c : C)             (* construct a mesh at address a *)
  | Copy (dst src : nat)              (* implicit copy constructor: members are copied, mesh_ included *)
  | Assign (dst src : nat)            (* implicit copy assignment *)
  | Relocate (dst src : nat)          (* move construction at dst followed by the end of src, as when a std::vector grows *)
  | Destroy (a : nat)
  | Locate (a : nat) (p : P).

(* constructing over a live object or using a dead one is not something a correct client does [a client of triangulation.h:252-260 and of the implicit copy, move and destructor of the mesh] *)
Definition step (h : memory) (x : op) : Res (memory * list R) :=
  match x with
  | New a c => match h a with None => Ok (put h a (Some (Mesh c None)), []) | Some _ => UB end
  | Copy dst src => m <- deref h src ;; match h dst with None => Ok (put h dst (Some m), []) | Some _ => UB end
  | Assign dst src => m <- deref h src ;; _ <- deref h dst ;; Ok (put h dst (Some m), [])
  | Relocate dst src => m <- deref h src ;; match h dst with None => Ok (put (put h dst (Some m)) src None, []) | Some _ => UB end
  | Destroy a => _ <- deref h a ;; Ok (put h a None, [])
  | Locate a p => r <- locate h a p ;; Ok (fst r, [snd r])
  end.
(* a client of triangulation.h:252-260 and of the implicit copy, move and destructor of the mesh *)
Fixpoint run (h : memory) (l : list op) : Res (memory * list R) :=
  match l with
  | [] => Ok (h, [])
  | x :: l' => r <- step h x ;; r' <- run (fst r) l' ;; Ok (fst r', snd r ++ snd r')
  end.
End Lifetime.

(* ---- several threads ------------------------------------------------------------------------- *)
(* The accesses that a call of locate makes to the member location_policy_ of one mesh, in order
   (triangulation.h:253-254): it tests whether there is a value, writes one if there was none, and reads it. *)
Inductive phase := Test | Build | Use | Done.
Inductive access := Rd | Wr.
Definition next_access (ph : phase) : option access :=
  match ph with Test => Some Rd | Build => Some Wr | Use => Some Rd | Done => None end.
(* state: has the member a value, and where each thread is [location_policy_, triangulation.h:267] *)
Record shared := Shared { has_value : bool; threads : list phase }.
(* triangulation.h:252-256 *)
Definition advance (s : shared) (t : nat) : shared :=
  match nth_error (threads s) t with
  | Some Test => Shared (has_value s) (upd (threads s) t (if has_value s then Use else Build))
  | Some Build => Shared true (upd (threads s) t Use)
  | Some Use => Shared (has_value s) (upd (threads s) t Done)
  | _ => s
  end.
(* threads calling triangulation.h:252-256 *)
Definition schedule (s : shared) (l : list nat) : shared := fold_left advance l s.
(* a data race: two threads are about to access the member, at least one of them to write it [concurrent accesses in triangulation.h:252-256] *)
Definition race (s : shared) : Prop :=
  exists i j pi pj ai aj, i <> j /\ nth_error (threads s) i = Some pi /\ nth_error (threads s) j = Some pj /\
    next_access pi = Some ai /\ next_access pj = Some aj /\ (ai = Wr \/ aj = Wr).

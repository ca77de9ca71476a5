(** * TestSpec: faces of a rotation system, components, Euler's formula; subgraphs; what the
    integrity checks are meant to decide.  Nothing here mentions how the code works. *)
From Verif Require Import Base GraphRec GraphM GraphSpec DFSSpec.

(** ** Counting classes *)
(** The relation [R] splits the elements satisfying [P] into exactly [n] classes: [rs] has one
    representative of each. *)
Definition num_classes (P : Z -> Prop) (R : Z -> Z -> Prop) (n : Z) : Prop :=
  exists rs, NoDup rs /\ (forall r, In r rs -> P r) /\
    (forall r r', In r rs -> In r' rs -> R r r' -> r = r') /\
    (forall x, P x -> exists r, In r rs /\ R r x) /\
    n = Z.of_nat (length rs).

(** ** Faces of the rotation system given by the adjacency lists *)
(** The element after [e] in [l], the list being read as a cycle. *)
Fixpoint cnext_from (first : Z) (l : list Z) (e : Z) : Z :=
  match l with
  | [] => NIL
  | a :: l' => if a =? e then hd first l' else cnext_from first l' e
  end.
Definition cnext (l : list Z) (e : Z) : Z := cnext_from (hd NIL l) l e.

Definition is_arc (adj : Z -> list Z) (e : Z) : Prop := exists v, In e (adj v).
(** Having walked along arc [e], turn into the arc that follows its twin in the rotation of the
    vertex just reached. *)
Definition face_step (g : graph) (adj : Z -> list Z) (e : Z) : Z :=
  cnext (adj (enbr g e)) (twin e).
(** Repeating that from [a] leads to [b]. *)
Definition same_face (g : graph) (adj : Z -> list Z) (a b : Z) : Prop :=
  exists k : nat, Nat.iter k (face_step g adj) a = b.

Definition num_faces (g : graph) (adj : Z -> list Z) (F : Z) : Prop :=
  num_classes (is_arc adj) (same_face g adj) F.
Definition num_components (g : graph) (adj : Z -> list Z) (C : Z) : Prop :=
  num_classes (primary g) (connected g adj) C.
Definition num_isolated (g : graph) (adj : Z -> list Z) : Z :=
  Z.of_nat (length (filter (fun v => match adj v with [] => true | _ => false end)
                      (map Z.of_nat (seq 1 (Z.to_nat (gN g)))))).

(** Euler's formula V - E + F = 2 summed over the components; an isolated vertex has the one face
    around it, which the arcs do not show. *)
Definition euler (g : graph) (adj : Z -> list Z) : Prop :=
  exists F C, num_faces g adj F /\ num_components g adj C /\
    gN g - gM g + (F + num_isolated g adj) = 2 * C.

(** The vertices without a DFS parent are one for each connected component. *)
Definition one_root_each (g : graph) (adj : Z -> list Z) : Prop :=
  forall v, primary g v -> exists r, primary g r /\ par g r = NIL /\ connected g adj r v /\
    forall r', primary g r' -> par g r' = NIL -> connected g adj r' v -> r' = r.

(** Only visited flags of edges and the contents of the work stack may differ. *)
Record edge_marks_only (g h : graph) : Prop := {
  em_N : gN h = gN g; em_M : gM h = gM g; em_cap : gCap h = gCap g;
  em_vfirst : vfirst h = vfirst g; em_vlast : vlast h = vlast g;
  em_vindex : vindex h = vindex g; em_vflags : vflags h = vflags g;
  em_enext : enext h = enext g; em_eprev : eprev h = eprev g; em_enbr : enbr h = enbr g;
  em_eflags : forall e, Z.ldiff (eflags h e) EDGE_VISITED_MASK = Z.ldiff (eflags g e) EDGE_VISITED_MASK;
  em_holes : gholes h = gholes g; em_holesCap : gholesCap h = gholesCap g;
  em_stackCap : gstackCap h = gstackCap g; em_iflags : giflags h = giflags g;
  em_embed : gembed h = gembed g; em_VI : gVI h = gVI g; em_X : gX h = gX g }.

(** Only visited flags of primary vertices may differ. *)
Record vertex_marks_only (g h : graph) : Prop := {
  vm_N : gN h = gN g; vm_M : gM h = gM g; vm_cap : gCap h = gCap g;
  vm_vfirst : vfirst h = vfirst g; vm_vlast : vlast h = vlast g; vm_vindex : vindex h = vindex g;
  vm_vflags : forall v, Z.ldiff (vflags h v) VERTEX_VISITED_MASK = Z.ldiff (vflags g v) VERTEX_VISITED_MASK;
  vm_virtual : forall v, ~ primary g v -> vflags h v = vflags g v;
  vm_enext : enext h = enext g; vm_eprev : eprev h = eprev g; vm_enbr : enbr h = enbr g;
  vm_eflags : eflags h = eflags g; vm_holes : gholes h = gholes g; vm_holesCap : gholesCap h = gholesCap g;
  vm_stack : gstack h = gstack g; vm_stackCap : gstackCap h = gstackCap g;
  vm_iflags : giflags h = giflags g; vm_embed : gembed h = gembed g;
  vm_VI : gVI h = gVI g; vm_X : gX h = gX g }.

(** ** External face *)
(** [v] lies on the face on which the first arc of [r] lies (or is the edgeless [r] itself). *)
Definition on_first_face (g : graph) (adj : Z -> list Z) (r v : Z) : Prop :=
  match adj r with
  | [] => v = r
  | a :: _ => exists b, same_face g adj a b /\ In b (adj v)
  end.

(** Every vertex lies on such a face of some DFS root. *)
Definition all_outer (g : graph) (adj : Z -> list Z) : Prop :=
  forall v, primary g v -> exists r0, primary g r0 /\ par g r0 = NIL /\ on_first_face g adj r0 v.

(** ** Subgraphs *)
Definition is_sorted (g : graph) : bool := negb (Z.land (giflags g) 2 =? 0).
(** The number under which vertex [v] of [a] is known when [a] and [b] are compared: if only [a] has
    been renumbered by the depth first search, its vertices go by their original numbers. *)
Definition label (a b : graph) (v : Z) : Z := if is_sorted a && negb (is_sorted b) then vindex a v else v.
(** Every adjacency of the graph (s, sadj) is one of (g, gadj). *)
Definition sub_adj (s : graph) (sadj : Z -> list Z) (g : graph) (gadj : Z -> list Z) : Prop :=
  forall v e, In e (sadj v) -> exists v' e', In e' (gadj v') /\
    label g s v' = label s g v /\ label g s (enbr g e') = label s g (enbr s e).

(** A graph marked as renumbered has been searched and knows the original numbers. *)
Definition sort_state (g : graph) : Prop :=
  is_sorted g = true ->
    Z.land (giflags g) 1 <> 0 /\
    (forall v, primary g v -> primary g (vindex g v)) /\
    (forall v w, primary g v -> primary g w -> vindex g v = vindex g w -> v = w) /\
    (forall v, primary g v -> par g v <> NIL -> primary g (par g v)).

(** The same graph up to the visited flags of vertices (fields of vertices compared for existing
    vertices only). *)
Record same_but_marks (g h : graph) : Prop := {
  sm_N : gN h = gN g; sm_M : gM h = gM g; sm_cap : gCap h = gCap g;
  sm_first : forall v, is_vertex g v -> vfirst h v = vfirst g v;
  sm_last : forall v, is_vertex g v -> vlast h v = vlast g v;
  sm_index : forall v, is_vertex g v -> vindex h v = vindex g v;
  sm_flags : forall v, is_vertex g v -> Z.ldiff (vflags h v) VERTEX_VISITED_MASK = Z.ldiff (vflags g v) VERTEX_VISITED_MASK;
  sm_vflags : forall v, gN g < v <= 2 * gN g -> vflags h v = vflags g v;
  sm_info : forall v, primary g v ->
     par h v = par g v /\
     viLeast (gVI h) v = viLeast (gVI g) v /\ viLow (gVI h) v = viLow (gVI g) v /\
     viVisited (gVI h) v = viVisited (gVI g) v /\ viPertEdge (gVI h) v = viPertEdge (gVI g) v /\
     viPertRoots (gVI h) v = viPertRoots (gVI g) v /\ viFPChild (gVI h) v = viFPChild (gVI g) v /\
     viSDC (gVI h) v = viSDC (gVI g) v /\ viFwd (gVI h) v = viFwd (gVI g) v;
  sm_enbr : forall e, enbr h e = enbr g e;
  sm_enext : enext h = enext g; sm_eprev : eprev h = eprev g; sm_eflags : eflags h = eflags g;
  sm_holes : gholes h = gholes g; sm_holesCap : gholesCap h = gholesCap g; sm_stack : gstack h = gstack g;
  sm_stackCap : gstackCap h = gstackCap g; sm_iflags : giflags h = giflags g;
  sm_embed : gembed h = gembed g; sm_X : gX h = gX g }.

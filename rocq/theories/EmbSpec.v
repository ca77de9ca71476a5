(** * EmbSpec: what inverting a vertex, merging a root copy and joining the bicomps do. *)
From Verif Require Import Base GraphRec GraphM GraphSpec.

(** Nothing changed except (possibly) the adjacency lists, the external face links, the far ends
    of arcs and the index, flags and edge flags. *)
Record frame_core (g h : graph) : Prop := {
  fc_N : gN h = gN g; fc_M : gM h = gM g; fc_cap : gCap h = gCap g;
  fc_holes : gholes h = gholes g; fc_holesCap : gholesCap h = gholesCap g;
  fc_stack : gstack h = gstack g; fc_stackCap : gstackCap h = gstackCap g;
  fc_iflags : giflags h = giflags g; fc_embed : gembed h = gembed g; fc_VI : gVI h = gVI g;
  fc_brlPrev : brlPrev (gX h) = brlPrev (gX g); fc_brlNext : brlNext (gX h) = brlNext (gX g);
  fc_sdlPrev : sdlPrev (gX h) = sdlPrev (gX g); fc_sdlNext : sdlNext (gX h) = sdlNext (gX g);
  fc_IC : exIC (gX h) = exIC (gX g) }.

(** The two states agree in every field, array by array. *)
Record same_state (g h : graph) : Prop := {
  ss_core : frame_core g h;
  ss_vfirst : forall x, vfirst h x = vfirst g x; ss_vlast : forall x, vlast h x = vlast g x;
  ss_vindex : forall x, vindex h x = vindex g x; ss_vflags : forall x, vflags h x = vflags g x;
  ss_enext : forall x, enext h x = enext g x; ss_eprev : forall x, eprev h x = eprev g x;
  ss_enbr : forall x, enbr h x = enbr g x; ss_eflags : forall x, eflags h x = eflags g x;
  ss_ext0 : forall x, ext0 (gX h) x = ext0 (gX g) x; ss_ext1 : forall x, ext1 (gX h) x = ext1 (gX g) x }.

(** Only the list and the external face links of W changed: the list is reversed, the two
    links are exchanged. *)
Record inverted (g h : graph) (adj : Z -> list Z) (W : Z) : Prop := {
  iv_core : frame_core g h;
  iv_lists : chains h (upd adj W (rev (adj W)));
  iv_vindex : vindex h = vindex g; iv_vflags : vflags h = vflags g;
  iv_enbr : enbr h = enbr g; iv_eflags : eflags h = eflags g;
  iv_ext0 : forall x, ext0 (gX h) x = if x =? W then ext1 (gX g) W else ext0 (gX g) x;
  iv_ext1 : forall x, ext1 (gX h) x = if x =? W then ext0 (gX g) W else ext1 (gX g) x }.

(** The arcs of R went to W: in front of W's own for link 0, behind them for link 1; R has no
    arc left. *)
Definition merged_lists (adj : Z -> list Z) (W link R : Z) : Z -> list Z :=
  upd (upd adj R []) W (if link =? 0 then adj R ++ adj W else adj W ++ adj R).
(** Every arc that led to R leads to W. *)
Record merged (g h : graph) (adj : Z -> list Z) (W link R : Z) : Prop := {
  mg_core : frame_core g h;
  mg_lists : chains h (merged_lists adj W link R);
  mg_to : forall e, In e (adj R) -> enbr h (twin e) = W;
  mg_others : forall e, ~ In (twin e) (adj R) -> enbr h e = enbr g e;
  mg_vindex : forall v, v <> R -> vindex h v = vindex g v; mg_vindexR : vindex h R = NIL;
  mg_vflags : forall v, v <> R -> vflags h v = vflags g v; mg_vflagsR : vflags h R = 0;
  mg_eflags : eflags h = eflags g;
  mg_X : gX h = gX g }.

(** The vertex a possibly virtual vertex stands for: a virtual vertex R is a copy of the DFS
    parent of the vertex R - N. *)
Definition primary_of (g : graph) (v : Z) : Z := if v <=? gN g then v else viParent (gVI g) (v - gN g).
(** Every virtual vertex that has arcs is a copy of a proper vertex. *)
Definition copies_ok (g : graph) (adj : Z -> list Z) : Prop :=
  forall R, gN g < R <= 2 * gN g -> adj R <> [] -> 1 <= primary_of g R <= gN g.
(** Virtual vertices N+1 .. 2N that stand for v, the last one first. *)
Fixpoint copies_of (g : graph) (v : Z) (n : nat) : list Z :=
  match n with
  | O => []
  | S n' => (if primary_of g (gN g + Z.of_nat n) =? v then [gN g + Z.of_nat n] else []) ++ copies_of g v n'
  end.
(** The lists after the copies have been merged into the vertices they stand for. *)
Definition joined_lists (g : graph) (adj : Z -> list Z) (v : Z) : list Z :=
  if (1 <=? v) && (v <=? gN g) then flat_map adj (copies_of g v (Z.to_nat (gN g))) ++ adj v else [].

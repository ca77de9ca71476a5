(** * DrawSpec: what a visibility representation is. *)
From Verif Require Import Base GraphRec GraphM StrBufM GraphSpec DFSSpec DrawM.

(** the edge records of a graph without deleted edges *)
Definition arc (g : graph) (e : Z) : Prop := 2 <= e < 2 + 2 * gM g.

Definition row (c : dctx) (v : Z) : Z := dpos (dV c v).
Definition col (c : dctx) (e : Z) : Z := dpos (dE c e).
(** the horizontal bar of vertex [v] covers column [x] *)
Definition covers (c : dctx) (v x : Z) : Prop := dstart (dV c v) <= x <= dend (dV c v).
(** the vertical segment of edge [e] reaches row [y] *)
Definition reaches (c : dctx) (e y : Z) : Prop := dstart (dE c e) <= y <= dend (dE c e).

(** A visibility representation: vertices are horizontal bars in distinct rows, edges
    are vertical segments in distinct columns; a segment runs between the rows of its
    two end vertices, at a column covered by both bars, and meets no other bar. *)
Record visibility (c : dctx) : Prop := {
  vis_rows : forall u v, primary (dG c) u -> primary (dG c) v -> row c u = row c v -> u = v;
  vis_twin : forall e, arc (dG c) e -> dE c (Z.lxor e 1) = dE c e;
  vis_cols : forall e f, arc (dG c) e -> arc (dG c) f -> col c e = col c f -> f = e \/ f = Z.lxor e 1;
  vis_span : forall e u v, arc (dG c) e -> enbr (dG c) e = v -> enbr (dG c) (Z.lxor e 1) = u -> u <> v ->
     dstart (dE c e) = Z.min (row c u) (row c v) /\ dend (dE c e) = Z.max (row c u) (row c v);
  vis_touch : forall e, arc (dG c) e -> reaches c e (row c (enbr (dG c) e)) /\ covers c (enbr (dG c) e) (col c e);
  vis_clear : forall e w, arc (dG c) e -> primary (dG c) w ->
     w <> enbr (dG c) e -> w <> enbr (dG c) (Z.lxor e 1) ->
     ~ (reaches c e (row c w) /\ covers c w (col c e))
}.

(** Everything lies inside a picture of N rows and M columns. *)
Record in_picture (c : dctx) : Prop := {
  pic_vertex : forall v, primary (dG c) v ->
     0 <= row c v < gN (dG c) /\ 0 <= dstart (dV c v) <= dend (dV c v) /\ dend (dV c v) < gM (dG c);
  pic_edge : forall e, arc (dG c) e ->
     0 <= col c e < gM (dG c) /\ 0 <= dstart (dE c e) <= dend (dE c e) /\ dend (dE c e) < gN (dG c)
}.

(** For a loop, both ends of the segment are at the row of its vertex or one of them is. *)
Definition loops_ok (c : dctx) : Prop :=
  forall e, arc (dG c) e -> enbr (dG c) e = enbr (dG c) (Z.lxor e 1) ->
    row c (enbr (dG c) e) = dstart (dE c e) \/ row c (enbr (dG c) e) = dend (dE c e).

(** only the visited flags of the graph differ *)
Definition flags_only (c c' : dctx) : Prop :=
  dV c' = dV c /\ dE c' = dE c /\
  exists f f', dG c' = set_eflags (set_vflags (dG c) f) f'.

(** ** Ranges *)
(** [lo..hi] is exactly the range of the values of [f] on the list *)
Definition range_of (f : Z -> Z) (l : list Z) (lo hi : Z) : Prop :=
  (forall x, In x l -> lo <= f x <= hi) /\ (exists x, In x l /\ f x = lo) /\ (exists x, In x l /\ f x = hi).

(** ** Pictures *)
(** row [y] and column [x] of the rendition: every row has M characters and a newline *)
Definition cell (M : Z) (b : blk) (y x : Z) : Z := bdat b (y * (M + 1) + x).
Definition line_structure (N M : Z) (b : blk) : Prop :=
  bsz b = (M + 1) * 2 * N + 1 /\ bdat b ((M + 1) * 2 * N) = 0 /\
  (forall y, 0 <= y < 2 * N -> cell M b y M = 10) /\
  (forall y x, 0 <= y < 2 * N -> 0 <= x < M -> cell M b y x <> 10 /\ cell M b y x <> 0).

(** the vertical segment of edge [e] is drawn from the line below its upper end vertex to
    the line above its lower end vertex; a row of the drawing takes two lines *)
Definition segment_drawn (c : dctx) (b : blk) (e : Z) : Prop :=
  (forall y, dstart (dE c e) < y < dend (dE c e) -> cell (gM (dG c)) b (2 * y) (col c e) = 124) /\
  (forall y, dstart (dE c e) <= y < dend (dE c e) -> cell (gM (dG c)) b (2 * y + 1) (col c e) = 124).
(** the number of bytes of the picture *)
Definition picture_size (g : graph) : Z := (gM g + 1) * 2 * gN g + 1.
(** the number subtracted from the vertices in the labels *)
Definition label_offset (g : graph) : Z := if Z.land (giflags g) 8 =? 0 then 0 else 1.

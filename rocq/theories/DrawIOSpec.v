(** * DrawIOSpec: the text of the drawing section. *)
From Verif Require Import Base GraphRec GraphM StrBufM DrawM IOSpec.

(** "<DrawPlanar>", one line "number: pos start end" for each vertex and for each edge record in
    use, "</DrawPlanar>".  With zero-based numbering the numbers are reduced by 1 and by 2. *)
Definition rec_line (i : Z) (d : drec) : list Z :=
  dec i ++ [58; 32] ++ dec (dpos d) ++ [32] ++ dec (dstart d) ++ [32] ++ dec (dend d) ++ [10].
Definition name_codes : list Z := [68; 114; 97; 119; 80; 108; 97; 110; 97; 114].
Definition section_text (n bound : Z) (used : Z -> bool) (zb : bool) (V E : Z -> drec) : list Z :=
  [60] ++ name_codes ++ [62; 10] ++
  concat (map (fun v => rec_line (v - (if zb then 1 else 0)) (V v)) (from 1 n)) ++
  concat (map (fun e => rec_line (e - (if zb then 2 else 0)) (E e)) (filter used (from 2 (bound - 2)))) ++
  [60; 47] ++ name_codes ++ [62; 10].

(** Positions and extents are non-negative C ints. *)
Definition rec_ok (d : drec) : Prop := 0 <= dpos d <= INT_MAX /\ 0 <= dstart d <= INT_MAX /\ 0 <= dend d <= INT_MAX.
Definition block_text (b : blk) (n : Z) : list Z := map (bdat b) (from 0 n).

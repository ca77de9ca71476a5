(** * SpecM: model of the test of one given graph, c/planarityApp/planaritySpecificGraph.c, for the commands
    'p' (planarity) and 'o' (outerplanarity).

    Not modelled: the file names, the timer, the messages; opening and closing of files, which is taken
    to succeed, and failing allocations. *)
From Verif Require Import Base GraphRec GraphM DFSM TestM EmbM IOM.

(** SpecificGraph, planaritySpecificGraph.c:33-200: the value returned and the text written to the
    primary output, [None] if nothing is written.
    - [rd] is gp_Read or gp_ReadFromString (lines 54-61), [input] the text it reads.
    - [obstruction] says whether the caller wants an obstruction written: outfile2Name or pOutput2Str is
      not NULL (line 155).  An obstruction goes where an embedding would (lines 161-163), or, with a name
      given for it, to a file of its own (lines 171-176).
    - Lines 72-95: a NULL result of gp_DupGraph would be dereferenced by the check.
    - Lines 112-117: an error.  Lines 123-124: the caller's vertex order.  Lines 130-148: the embedding.
      Lines 155-191: the obstruction.  gp_Write and gp_WriteToString write what _WriteAdjList writes. *)
Definition SpecificGraph (rd : nat -> graph -> list Z -> res (graph * Z)) (fuel : nat) (embedFlags : Z)
    (input : list Z) (obstruction : bool) : res (Z * option (list Z)) :=
  '(theGraph, Result) <- rd fuel gp_New input ;;
  '(theGraph, Result) <-
    (if negb (Result =? C_OK) then Ret (theGraph, Result)
     else
       o <- gp_DupGraph theGraph ;;
       match o with
       | None => UB
       | Some origGraph =>
           '(theGraph, Result) <- gp_Embed theGraph embedFlags ;;
           '(theGraph, _, Result) <- gp_TestEmbedResultIntegrity theGraph origGraph Result ;;
           Ret (theGraph, Result)
       end) ;;
  if negb (Result =? C_OK) && negb (Result =? C_NONEMBEDDABLE) then Ret (C_NOTOK, None)
  else
    '(theGraph, _) <- gp_SortVertices theGraph ;;
    if (Result =? C_OK) || obstruction then
      '(text, w) <- _WriteAdjList theGraph ;;
      Ret (if negb (w =? C_OK) then C_NOTOK else Result, Some text)
    else Ret (Result, None).

(** * AppM: model of the random-graph test of c/planarityApp/planarityRandomGraphs.c and of the test of all
    graphs in a file of c/planarityApp/planarityTestAllGraphs.c, for the commands 'p' (planarity) and 'o'
    (outerplanarity).

    Not modelled: writing the graphs to files (four options, off unless the user turns them on), the
    counts of obstruction minors by type, the timer and the messages. *)
From Verif Require Import Base GraphRec GraphM RandM DFSM TestM EmbM StrBufM G6M.

(** GetNumberIfZero, planarityRandomGraphs.c:291-309; [answer] is what the user types when asked *)
Definition GetNumberIfZero (num answer min max : Z) : Z :=
  let num := if num =? 0 then answer else num in
  let min := if min <? 1 then 1 else min in
  let max := if max <? min then min else max in
  if (num <? min) || (num >? max) then (max + min) / 2 else num.

(** MakeGraph, planarityRandomGraphs.c:317-341, without failing allocations; [None] is NULL.  The two
    commands attach no extension. *)
Definition MakeGraph (Size : Z) : option graph :=
  let '(g, r) := gp_InitGraph gp_New Size in if r =? C_OK then Some g else None.

(** One round of the loop, planarityRandomGraphs.c:82-188, with graphs reused (ReuseGraphs is TRUE,
    line 33; ReinitializeGraph, 349-359): theGraph, origGraph and Result afterwards.  [rnd] is what rand()
    returns in this round. *)
Definition random_round (fuel : nat) (rnd : nat -> Z) (embedFlags : Z) (theGraph origGraph : graph)
  : res (graph * graph * Z) :=
  '(theGraph, Result) <- gp_CreateRandomGraph fuel rnd theGraph ;;
  '(theGraph, origGraph, Result) <-
    (if Result =? C_OK then
       '(origGraph, _) <- gp_CopyGraph origGraph theGraph ;;
       '(theGraph, Result) <- gp_Embed theGraph embedFlags ;;
       '(theGraph, origGraph, t) <- gp_TestEmbedResultIntegrity theGraph origGraph Result ;;
       Ret (theGraph, origGraph, if negb (t =? Result) then C_NOTOK else Result)
     else Ret (theGraph, origGraph, Result)) ;;
  Ret (gp_ReinitializeGraph theGraph, gp_ReinitializeGraph origGraph, Result).

(** The loop, planarityRandomGraphs.c:79-204: [n] rounds to go, K done.  Returns Result and MainStatistic. *)
Fixpoint random_loop (n : nat) (fuel : nat) (rnd : nat -> nat -> Z) (embedFlags : Z) (K : nat)
    (theGraph origGraph : graph) (Result MainStatistic : Z) : res (Z * Z) :=
  match n with
  | O => Ret (Result, MainStatistic)
  | S n' =>
    '(theGraph, origGraph, Result) <- random_round fuel (rnd K) embedFlags theGraph origGraph ;;
    let MainStatistic := if Result =? C_OK then MainStatistic + 1 else MainStatistic in
    if negb (Result =? C_OK) && negb (Result =? C_NONEMBEDDABLE) then Ret (C_NOTOK, MainStatistic)
    else random_loop n' fuel rnd embedFlags (S K) theGraph origGraph Result MainStatistic
  end.

(** RandomGraphs, planarityRandomGraphs.c:24-280.  Returns the result and the printed number of graphs
    embedded.  The graph left in theGraph when only origGraph cannot be made is freed there; without
    failing allocations both can be made or neither. *)
Definition RandomGraphs (fuel : nat) (rnd : nat -> nat -> Z) (embedFlags NumGraphs answer1 SizeOfGraphs answer2 : Z)
  : res (Z * Z) :=
  let NumGraphs := GetNumberIfZero NumGraphs answer1 1 1000000000 in
  let SizeOfGraphs := GetNumberIfZero SizeOfGraphs answer2 1 10000 in
  match MakeGraph SizeOfGraphs, MakeGraph SizeOfGraphs with
  | Some theGraph, Some origGraph =>
    '(Result, MainStatistic) <- random_loop (Z.to_nat NumGraphs) fuel rnd embedFlags 0 theGraph origGraph C_OK 0 ;;
    Ret (if (Result =? C_OK) || (Result =? C_NONEMBEDDABLE) then C_OK else C_NOTOK, MainStatistic)
  | _, _ => Ret (C_NOTOK, 0)
  end.

(** ** All graphs in a file *)
(** testAllStats, planarityTestAllGraphs.c:13-20, without the duration *)
Record stats := mkStats { st_read : Z; st_ok : Z; st_non : Z; st_error : bool }.

(** One round of the loop after the graph was read, planarityTestAllGraphs.c:238-258; the graph that was read is emptied by
    the next reading *)
Definition test_round (embedFlags : Z) (currGraph copyOfOrigGraph : graph) : res (graph * graph * Z) :=
  '(copyOfOrigGraph, _) <- gp_CopyGraph copyOfOrigGraph currGraph ;;
  '(currGraph, Result) <- gp_Embed currGraph embedFlags ;;
  '(currGraph, copyOfOrigGraph, t) <- gp_TestEmbedResultIntegrity currGraph copyOfOrigGraph Result ;;
  let Result := if negb (t =? Result) then C_NOTOK else Result in
  if (Result =? C_OK) || (Result =? C_NONEMBEDDABLE) then Ret (currGraph, gp_ReinitializeGraph copyOfOrigGraph, Result)
  else Ret (currGraph, copyOfOrigGraph, Result).

(** The loop, planarityTestAllGraphs.c:222-264: Result and the statistics.  currGraph is NULL when the iterator
    is done. *)
Fixpoint test_all_loop (fuel : nat) (embedFlags : Z) (it : riter) (currGraph copyOfOrigGraph : graph) (numOK numNONEMBEDDABLE : Z)
  : res (Z * stats) :=
  match fuel with
  | O => OOF
  | S fuel' =>
    '(it, currGraph, Result) <- readGraphUsingG6ReadIterator it currGraph ;;
    if negb (Result =? C_OK) then Ret (Result, mkStats (r_num it) numOK numNONEMBEDDABLE true)
    else if r_done it then Ret (Result, mkStats (r_num it) numOK numNONEMBEDDABLE false)
    else
      '(currGraph, copyOfOrigGraph, Result) <- test_round embedFlags currGraph copyOfOrigGraph ;;
      if Result =? C_OK then test_all_loop fuel' embedFlags it currGraph copyOfOrigGraph (numOK + 1) numNONEMBEDDABLE
      else if Result =? C_NONEMBEDDABLE then test_all_loop fuel' embedFlags it currGraph copyOfOrigGraph numOK (numNONEMBEDDABLE + 1)
      else Ret (Result, mkStats (r_num it) numOK numNONEMBEDDABLE true)
  end.

(** testAllGraphs, planarityTestAllGraphs.c:141-275, on a file with the given content; theGraph is the new graph made by
    TestAllGraphs (line 58).  Ending the iteration and freeing succeed. *)
Definition testAllGraphs (fuel : nat) (embedFlags : Z) (content : list Z) : res (Z * stats) :=
  '(it, currGraph, Result) <- begin_read_file allocateG6ReadIterator content gp_New ;;
  if negb (Result =? C_OK) then Ret (Result, mkStats 0 0 0 true)
  else
    let '(copyOfOrigGraph, Result) := gp_InitGraph gp_New (r_order it) in
    if negb (Result =? C_OK) then Ret (Result, mkStats 0 0 0 true)
    else test_all_loop fuel embedFlags it currGraph copyOfOrigGraph 0 0.

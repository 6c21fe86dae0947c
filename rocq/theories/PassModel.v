(** llvm-pass/addEmptyBlocks/AddEmptyBlocks.cpp: the pass that is run on the LLVM code
    before the frontend sees it (tests/llvm/compile-add-blocks.sh:25). *)

From Coq Require Import String List ZArith Bool.
From Verif Require Import Ast LlModel.
Import ListNotations.
Local Open Scope list_scope.

Section Pass.
(** the names of the new blocks.  They have none at first
    (AddEmptyBlocks.cpp:40, [BasicBlock::Create(F.getContext(), "", &F)]); LLVM and
    [opt -instnamer] give them different names that are not used yet. *)
Variable fresh : nat -> string.

(** AddEmptyBlocks.cpp:38-44 [createBB]: a block with only a jump *)
Definition create_bb (k : nat) (succ : string) : string * list instr := (fresh k, [IBr succ]).

(** AddEmptyBlocks.cpp:52-71 and 75-81: the instructions of one block; [k] new blocks
    exist already.  The new blocks are visited by the loop too, but contain no
    conditional branch.  Simplification: [replacePhiUsesWith] is left out, phi
    instructions are not supported by the frontend. *)
Fixpoint split_instrs (k : nat) (is : list instr) : list instr * list (string * list instr) * nat :=
  match is with
  | [] => ([], [], k)
  | ICondBr c t f :: r =>
      let q := split_instrs (S (S k)) r in
      (ICondBr c (fresh k) (fresh (S k)) :: fst (fst q),
       create_bb k t :: create_bb (S k) f :: snd (fst q), snd q)
  | i :: r =>
      let q := split_instrs k r in (i :: fst (fst q), snd (fst q), snd q)
  end.
(** AddEmptyBlocks.cpp:46-84 [runOnFunction]: the changed blocks, and the new blocks,
    which go to the end of the function *)
Fixpoint split_blocks (k : nat) (blks : list (string * list instr))
  : list (string * list instr) * list (string * list instr) :=
  match blks with
  | [] => ([], [])
  | (b, is) :: r =>
      let q := split_instrs k is in
      let rest := split_blocks (snd q) r in
      ((b, fst (fst q)) :: fst rest, snd (fst q) ++ snd rest)
  end.
Definition add_empty_blocks (blks : list (string * list instr)) : list (string * list instr) :=
  let q := split_blocks 0 blks in fst q ++ snd q.
End Pass.

(** C01: longest-prefix-match lookup returns the longest installed prefix. *)
From Coq Require Import List Arith NArith.
From Verif Require Import Bits LpmModel LpmSpec LpmProofs.
Import ListNotations.

(** For every key width, every history of well-formed calls on a fresh trie runs without
    undefined behaviour and every answer is the one of the bit-string specification. *)
Theorem C01_longest_prefix_match : forall (V : Type) (kw : nat) (ops : list (lop V)),
  Forall (lop_ok kw) ops ->
  exists n outs t, lpm_run kw (@empty_node V) ops = Some (n, outs) /\ lspec_run [] ops outs t.
Proof. exact (@lpm_history). Qed.
Print Assumptions C01_longest_prefix_match.

Definition C01_ops : list (lop N) :=
  [LInsert [10; 0; 0; 0] 8 1; LInsert [10; 1; 0; 0] 16 2; LInsert [10; 1; 128; 0] 17 3;
   LInsert [0; 0; 0; 0] 0 4; LInsert [10; 1; 2; 3] 32 5;
   LLookup [10; 1; 2; 3]; LLookup [10; 1; 2; 4]; LLookup [10; 1; 200; 3]; LLookup [10; 2; 2; 3];
   LDelete [10; 1; 9; 9] 16; LLookup [10; 1; 2; 4]; LDelete [10; 1; 9; 9] 16;
   LLookup [11; 0; 0; 0]; LRetrieve [10; 1; 2; 3] 32]%N.

Example C01_nonvacuous :
  Forall (lop_ok 4) C01_ops /\
  exists n, lpm_run 4 empty_node C01_ops =
  Some (n, [LUnit; LUnit; LUnit; LUnit; LUnit;
            LVal (Some 5); LVal (Some 2); LVal (Some 3); LVal (Some 1);
            LBool true; LVal (Some 1); LBool false; LVal (Some 4); LVal (Some 5)]%N).
Proof.
  split; [|eexists; vm_compute; reflexivity].
  unfold C01_ops. repeat constructor; cbn; auto 50 with arith; unfold bytes_ok; repeat constructor.
Qed.

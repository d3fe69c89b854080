(** Model of src/bm_sim/lpm_trie.cpp (LPMTrie). *)
From Coq Require Import List Arith NArith Bool.
From Verif Require Import Base SMap.
Import ListNotations.

Section Lpm.
Context {V : Type}.   (* value_t = uintptr_t, lpm_trie.h:23; opaque to the trie *)

(** lpm_trie.cpp:17-28, order of Prefix: (prefix_length, key) *)
Definition pf_ltb (a b : nat * N) : bool :=
  if fst a =? fst b then (snd a <? snd b)%N else fst a <? fst b.

(** lpm_trie.cpp:12-15,30-69: Node with its sorted vectors [branches] and [prefixes].
    The parent pointer and child_id (used only to walk back up in delete_prefix) are
    represented by the recursion of [trie_delete]: a child reached through branch [b] was
    created with child_id [b] (lpm_trie.cpp:170-172). *)
Inductive node := Node (branches : list (N * node)) (prefixes : list ((nat * N) * V)).

Definition branches (n : node) := let 'Node b _ := n in b.
Definition prefixes (n : node) := let 'Node _ p := n in p.
Definition empty_node : node := Node [] [].

(** lpm_trie.cpp:71-77 *)
Definition get_next_node (n : node) (b : N) : option node := smap_find N.ltb b (branches n).
(** lpm_trie.cpp:79-88 *)
Definition node_insert_prefix (n : node) (len : nat) (key : N) (v : V) : node :=
  Node (branches n) (smap_put pf_ltb (len, key) v (prefixes n)).
(** lpm_trie.cpp:90-97 with 129-139 *)
Definition node_get_prefix (n : node) (len : nat) (key : N) : option V :=
  smap_find pf_ltb (len, key) (prefixes n).
(** lpm_trie.cpp:99-106; [None] = returned false *)
Definition node_delete_prefix (n : node) (len : nat) (key : N) : option node :=
  match node_get_prefix n len key with
  | Some _ => Some (Node (branches n) (smap_del pf_ltb (len, key) (prefixes n)))
  | None => None
  end.
(** lpm_trie.cpp:108-115 for a new child; also the in-place update of an existing child
    through its pointer *)
Definition set_child (n : node) (b : N) (c : node) : node :=
  Node (smap_put N.ltb b c (branches n)) (prefixes n).
(** lpm_trie.cpp:117-127 *)
Definition delete_branch (n : node) (b : N) : node :=
  Node (smap_del N.ltb b (branches n)) (prefixes n).
(** lpm_trie.cpp:59 *)
Definition node_is_empty (n : node) : bool :=
  match n with Node [] [] => true | _ => false end.

(** lpm_trie.cpp:180, 202, 232: [static_cast<byte_t>(prefix[i]) >> (8 - prefix_length)];
    reading prefix[size()] gives '\0' for a std::string. *)
Definition last_key (bs : list N) (plen : nat) : N := N.shiftr (hd 0%N bs) (N.of_nat (8 - plen)).

(** lpm_trie.cpp:160-182.  [None]: prefix_length exceeds the string, undefined behaviour. *)
Fixpoint trie_insert (n : node) (bs : list N) (plen : nat) (v : V) {struct bs} : option node :=
  if plen <? 8 then Some (node_insert_prefix n plen (last_key bs plen) v)
  else match bs with
       | [] => None
       | b :: r =>
           let child := match get_next_node n b with Some c => c | None => empty_node end in
           match trie_insert child r (plen - 8) v with
           | Some c' => Some (set_child n b c')
           | None => None
           end
       end.

(** lpm_trie.cpp:190-204; outer [None] = undefined behaviour, inner = returned false *)
Fixpoint trie_retrieve (n : node) (bs : list N) (plen : nat) {struct bs} : option (option V) :=
  if plen <? 8 then Some (node_get_prefix n plen (last_key bs plen))
  else match bs with
       | [] => None
       | b :: r => match get_next_node n b with
                   | Some c => trie_retrieve c r (plen - 8)
                   | None => Some None
                   end
       end.

(** lpm_trie.cpp:221-243; inner [None] = returned false (trie unchanged).  The loop 235-240
    removes a node that became empty from its parent, and goes on with the parent. *)
Fixpoint trie_delete (n : node) (bs : list N) (plen : nat) {struct bs} : option (option node) :=
  if plen <? 8 then Some (node_delete_prefix n plen (last_key bs plen))
  else match bs with
       | [] => None
       | b :: r => match get_next_node n b with
                   | Some c =>
                       match trie_delete c r (plen - 8) with
                       | Some (Some c') =>
                           Some (Some (if node_is_empty c' then delete_branch n b
                                       else set_child n b c'))
                       | Some None => Some None
                       | None => None
                       end
                   | None => Some None
                   end
       end.

(** lpm_trie.cpp:261-269: try lengths [len-1], ..., 0 of the current byte *)
Fixpoint node_scan (n : node) (len : nat) (cur : N) : option V :=
  match len with
  | O => None
  | S len' => let cur' := N.shiftr cur 1 in
              match node_get_prefix n len' cur' with
              | Some v => Some v
              | None => node_scan n len' cur'
              end
  end.

(** lpm_trie.cpp:250-277; outer [None] = read past the key (undefined behaviour) *)
Fixpoint trie_lookup (n : node) (key : list N) (key_width : nat) (found : option V)
  : option (option V) :=
  match key_width with
  | O => Some (node_get_prefix n 0 0)
  | S kw => match key with
            | [] => None
            | b :: r =>
                let found' := match node_scan n 8 b with Some v => Some v | None => found end in
                match get_next_node n b with
                | Some c => trie_lookup c r kw found'
                | None => Some found'
                end
            end
  end.

(** ** Operation histories on one trie of width [kw] bytes (lpm_trie.cpp:141-145, 284) *)
Inductive lop :=
| LInsert (p : list N) (len : nat) (v : V)
| LDelete (p : list N) (len : nat)
| LRetrieve (p : list N) (len : nat)
| LLookup (key : list N)
| LClear.
Inductive lout := LUnit | LBool (b : bool) | LVal (o : option V).

Definition lpm_step (kw : nat) (t : node) (o : lop) : option (node * lout) :=
  match o with
  | LInsert p len v =>
      match trie_insert t p len v with Some t' => Some (t', LUnit) | None => None end
  | LDelete p len =>
      match trie_delete t p len with
      | Some (Some t') => Some (t', LBool true)
      | Some None => Some (t, LBool false)
      | None => None
      end
  | LRetrieve p len =>
      match trie_retrieve t p len with Some r => Some (t, LVal r) | None => None end
  | LLookup key =>
      match trie_lookup t key kw None with Some r => Some (t, LVal r) | None => None end
  | LClear => Some (empty_node, LUnit)
  end.

Fixpoint lpm_run (kw : nat) (t : node) (ops : list lop) : option (node * list lout) :=
  match ops with
  | [] => Some (t, [])
  | o :: r => match lpm_step kw t o with
              | Some (t', x) => match lpm_run kw t' r with
                                | Some (t'', xs) => Some (t'', x :: xs) | None => None end
              | None => None
              end
  end.
End Lpm.
Arguments node : clear implicits.
Arguments lop : clear implicits.
Arguments lout : clear implicits.

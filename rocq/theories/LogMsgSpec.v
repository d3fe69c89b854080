(** Format strings and what they stand for. *)
From Coq Require Import List Arith Ascii Bool.
Import ListNotations.

(** The pieces of a format string *)
Inductive piece :=
| Plain (c : ascii)          (* a character other than a brace or a backslash *)
| Slash (c : ascii)          (* a backslash before such a character *)
| Brace (opening : bool)     (* a brace after a backslash *)
| Lone                       (* a closing brace *)
| Hole (inside : list piece).  (* a placeholder *)
Definition ordinary (c : ascii) : Prop := c <> "{"%char /\ c <> "}"%char /\ c <> "\"%char.
Definition text1 (p : piece) : list ascii :=
  match p with
  | Plain c => [c]
  | Slash c => ["\"%char; c]
  | Brace true => ["\"%char; "{"%char]
  | Brace false => ["\"%char; "}"%char]
  | Lone => ["}"%char]
  | Hole _ => []
  end.
Definition text (p : piece) : list ascii := match p with Hole l => "{"%char :: concat (map text1 l) ++ ["}"%char] | _ => text1 p end.
(** The format string made of the pieces *)
Definition format (ps : list piece) : list ascii := concat (map text ps).
Definition flat (p : piece) : Prop := match p with Plain c | Slash c => ordinary c | Brace _ => True | Lone | Hole _ => False end.
Definition well_formed (p : piece) : Prop := match p with Plain c | Slash c => ordinary c | Brace _ | Lone => True | Hole l => Forall flat l end.

Definition holes (ps : list piece) : nat := length (filter (fun p => match p with Hole _ => true | _ => false end) ps).
(** What should be logged *)
Fixpoint message (ps : list piece) (args : list (list ascii)) : list ascii :=
  match ps with
  | [] => []
  | Hole _ :: r => match args with t :: a => t ++ message r a | [] => message r [] end
  | Plain c :: r => c :: message r args
  | Slash c :: r => "\"%char :: c :: message r args
  | Brace true :: r => "{"%char :: message r args
  | Brace false :: r => "}"%char :: message r args
  | Lone :: r => "}"%char :: message r args
  end.
(** No placeholder at the beginning, nor right after another one *)
Fixpoint spaced (after_hole : bool) (ps : list piece) : bool :=
  match ps with
  | [] => true
  | Hole _ :: r => negb after_hole && spaced true r
  | _ :: r => spaced false r
  end.

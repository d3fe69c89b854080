(** Model of the error-code map, src/bm_sim/parser_error.cpp:22-100, and of the enum map,
    src/bm_sim/enums.cpp.  Strings are lists of character codes; std::unordered_map is an
    association list; int is 32 bits and its overflow is undefined behaviour ([None]).
    std::out_of_range (map::at) is [None] in the lookups. *)
From Coq Require Import List Arith NArith ZArith Bool.
Import ListNotations.

Definition str : Type := list N.
Fixpoint str_eqb (a b : str) : bool :=
  match a, b with
  | [], [] => true
  | x :: a, y :: b => (x =? y)%N && str_eqb a b
  | _, _ => false
  end.

Section Map.
Context {K V : Type}.
Variable eqb : K -> K -> bool.
Fixpoint aget (m : list (K * V)) (k : K) : option V :=
  match m with [] => None | (x, v) :: r => if eqb x k then Some v else aget r k end.
(** operator[] followed by an assignment *)
Fixpoint aset (m : list (K * V)) (k : K) (v : V) : list (K * V) :=
  match m with
  | [] => [(k, v)]
  | (x, w) :: r => if eqb x k then (x, v) :: r else (x, w) :: aset r k v
  end.
End Map.

(** ErrorCodeMap, parser_error.h:56-99 *)
Record emap := mkEM { em_names : list (Z * str) (* map_v_to_name *); em_vals : list (str * Z) (* map_name_to_v *) }.
Definition em_new : emap := mkEM [] [].
Definition em_exists_name (m : emap) (n : str) : bool := match aget str_eqb (em_vals m) n with Some _ => true | None => false end.
Definition em_exists_v (m : emap) (v : Z) : bool := match aget Z.eqb (em_names m) v with Some _ => true | None => false end.
(** add, parser_error.cpp:22-28 *)
Definition em_add (m : emap) (n : str) (v : Z) : emap * bool :=
  if em_exists_name m n || em_exists_v m v then (m, false)
  else (mkEM (aset Z.eqb (em_names m) v n) (aset str_eqb (em_vals m) n v), true).

Definition int_max : Z := 2147483647.
(** int addition of one *)
Definition int_incr (v : Z) : option Z := if (v =? int_max)%Z then None else Some (v + 1)%Z.

(** core_to_name, 78-100, of each of the Core errors in the order of 50-52 *)
Definition core_names : list str :=
  [ [78;111;69;114;114;111;114] (* NoError *);
    [80;97;99;107;101;116;84;111;111;83;104;111;114;116] (* PacketTooShort *);
    [78;111;77;97;116;99;104] (* NoMatch *);
    [83;116;97;99;107;79;117;116;79;102;66;111;117;110;100;115] (* StackOutOfBounds *);
    [72;101;97;100;101;114;84;111;111;83;104;111;114;116] (* HeaderTooShort *);
    [80;97;114;115;101;114;84;105;109;101;111;117;116] (* ParserTimeout *);
    [80;97;114;115;101;114;73;110;118;97;108;105;100;65;114;103;117;109;101;110;116] (* ParserInvalidArgument *) ]%N.

(** add_core, 40-56 *)
Fixpoint add_names (m : emap) (names : list str) (max_v : Z) : option emap :=
  match names with
  | [] => Some m
  | n :: r =>
      if em_exists_name m n then add_names m r max_v
      else match int_incr max_v with          (* max_v++ *)
           | None => None
           | Some next => add_names (fst (em_add m n max_v)) r next
           end
  end.
Definition max_key (l : list (Z * str)) : option Z :=   (* std::max_element *)
  fold_right (fun x acc => match acc with None => Some (fst x) | Some y => Some (Z.max (fst x) y) end) None l.
Definition em_add_core (m : emap) : option emap :=
  match match max_key (em_names m) with None => Some 0%Z | Some v => int_incr v end with
  | None => None
  | Some max_v => add_names m core_names max_v
  end.
(** from_name, to_name, from_core, 58-72; [i] is the Core value *)
Definition em_from_name (m : emap) (n : str) : option Z := aget str_eqb (em_vals m) n.
Definition em_to_name (m : emap) (v : Z) : option str := aget Z.eqb (em_names m) v.
Definition em_from_core (m : emap) (i : nat) : option Z :=
  match nth_error core_names i with Some n => aget str_eqb (em_vals m) n | None => None end.
(** ErrorCode::make_invalid, parser_error.h:47-52 *)
Definition invalid_code : Z := int_max.

(** EnumMap, enums.h:45-72 *)
Record enmap := mkEN { en_vals : list (str * Z) (* map_name_to_v *); en_enums : list (str * list (Z * str)) }.
Definition en_new : enmap := mkEN [] [].
(** add_enum, enums.cpp:17-23 *)
Definition en_add_enum (m : enmap) (e : str) : enmap * bool :=
  match aget str_eqb (en_enums m) e with
  | Some _ => (m, false)
  | None => (mkEN (en_vals m) (aset str_eqb (en_enums m) e []), true)
  end.
Definition dot : N := 46.
(** add_entry, 25-43 *)
Definition en_add_entry (m : enmap) (e n : str) (v : Z) : enmap * bool :=
  match aget str_eqb (en_enums m) e with
  | None => (m, false)
  | Some entries =>
      match aget Z.eqb entries v with
      | Some _ => (m, false)
      | None =>
          let name := e ++ dot :: n in
          match aget str_eqb (en_vals m) name with
          | Some _ => (m, false)
          | None => (mkEN (aset str_eqb (en_vals m) name v)
                          (aset str_eqb (en_enums m) e (aset Z.eqb entries v name)), true)
          end
      end
  end.
(** from_name and to_name, 45-54 *)
Definition en_from_name (m : enmap) (name : str) : option Z := aget str_eqb (en_vals m) name.
Definition en_to_name (m : enmap) (e : str) (v : Z) : option str :=
  match aget str_eqb (en_enums m) e with Some entries => aget Z.eqb entries v | None => None end.

Inductive eop := EAdd (n : str) (v : Z) | EName (n : str) | EVal (v : Z) | EHasName (n : str) | EHasVal (v : Z) | ECore.
Inductive eout := EBool (b : bool) | EV (v : option Z) | EN (n : option str) | EDone.
Definition em_step (m : emap) (o : eop) : option (emap * eout) :=
  match o with
  | EAdd n v => let (m', b) := em_add m n v in Some (m', EBool b)
  | EName n => Some (m, EV (em_from_name m n))
  | EVal v => Some (m, EN (em_to_name m v))
  | EHasName n => Some (m, EBool (em_exists_name m n))
  | EHasVal v => Some (m, EBool (em_exists_v m v))
  | ECore => match em_add_core m with Some m' => Some (m', EDone) | None => None end
  end.
Fixpoint em_run (m : emap) (ops : list eop) : option (emap * list eout) :=
  match ops with
  | [] => Some (m, [])
  | o :: r => match em_step m o with
              | Some (m', x) => match em_run m' r with Some (m'', xs) => Some (m'', x :: xs) | None => None end
              | None => None
              end
  end.

Inductive nop := NEnum (e : str) | NEntry (e n : str) (v : Z) | NFrom (name : str) | NTo (e : str) (v : Z).
Definition en_step (m : enmap) (o : nop) : enmap * eout :=
  match o with
  | NEnum e => let (m', b) := en_add_enum m e in (m', EBool b)
  | NEntry e n v => let (m', b) := en_add_entry m e n v in (m', EBool b)
  | NFrom s => (m, EV (en_from_name m s))
  | NTo e v => (m, EN (en_to_name m e v))
  end.
Fixpoint en_run (m : enmap) (ops : list nop) : enmap * list eout :=
  match ops with
  | [] => (m, [])
  | o :: r => let (m', x) := en_step m o in let (m'', xs) := en_run m' r in (m'', x :: xs)
  end.

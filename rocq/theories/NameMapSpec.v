(** One-to-one maps between names and values. *)
From Coq Require Import List Arith NArith ZArith Bool Ascii String.
From Verif Require Import NameMapModel.
Import ListNotations.
Local Open Scope list_scope.

(** ** Errors: the set of (name, code) pairs defined so far *)
Definition errs : Type := list (str * Z).
Definition name_free (s : errs) (n : str) : Prop := forall v, ~ In (n, v) s.
Definition code_free (s : errs) (v : Z) : Prop := forall n, ~ In (n, v) s.
(** The errors of core.p4. *)
Definition codes (s : string) : str := map N_of_ascii (list_ascii_of_string s).
Definition core_errors : list str :=
  map codes ["NoError"; "PacketTooShort"; "NoMatch"; "StackOutOfBounds"; "HeaderTooShort"; "ParserTimeout";
             "ParserInvalidArgument"]%string.
(** What adding them does: [s'] has the pairs of [s], then exactly the missing core names, with
    consecutive codes above all others, or from 0 if there are none. *)
Definition core_added (s s' : errs) : Prop :=
  exists new base, s' = s ++ new /\ (forall n, In n (map fst new) <-> In n core_errors /\ name_free s n) /\ NoDup (map fst new) /\
    map snd new = map (fun i => (base + Z.of_nat i)%Z) (seq 0 (List.length new)) /\
    (s = [] -> base = 0%Z) /\ (s <> [] -> (exists n, In (n, base - 1)%Z s) /\ forall n v, In (n, v) s -> (v < base)%Z).

Definition err_ok (s : errs) (o : eop) (x : eout) (s' : errs) : Prop :=
  match o with
  | EAdd n v => (x = EBool true /\ name_free s n /\ code_free s v /\ s' = s ++ [(n, v)]) \/
                (x = EBool false /\ ~ (name_free s n /\ code_free s v) /\ s' = s)
  | EName n => s' = s /\ match x with EV (Some v) => In (n, v) s | EV None => name_free s n | _ => False end
  | EVal v => s' = s /\ match x with EN (Some n) => In (n, v) s | EN None => code_free s v | _ => False end
  | EHasName n => s' = s /\ match x with EBool true => ~ name_free s n | EBool false => name_free s n | _ => False end
  | EHasVal v => s' = s /\ match x with EBool true => ~ code_free s v | EBool false => code_free s v | _ => False end
  | ECore => x = EDone /\ core_added s s'
  end.
Fixpoint errs_run (s : errs) (ops : list eop) (outs : list eout) (s' : errs) : Prop :=
  match ops, outs with
  | [], [] => s' = s
  | o :: ops, x :: outs => exists s1, err_ok s o x s1 /\ errs_run s1 ops outs s'
  | _, _ => False
  end.
Definition one_to_one (s : errs) : Prop :=
  (forall n v v', In (n, v) s -> In (n, v') s -> v = v') /\ (forall n n' v, In (n, v) s -> In (n', v) s -> n = n') /\ NoDup s.

(** ** Enums: the enums defined, and their entries (enum, name, value); 46 is the code of the dot *)
Record ens := mkEns { n_enums : list str; n_entries : list (str * str * Z) }.
Definition full_name (e n : str) : str := e ++ 46%N :: n.
Definition fits (s : ens) (e n : str) (v : Z) : Prop :=
  In e (n_enums s) /\ (forall n' v', In (e, n', v') (n_entries s) -> n' <> n /\ v' <> v).
Definition en_ok (s : ens) (o : nop) (x : eout) (s' : ens) : Prop :=
  match o with
  | NEnum e => (x = EBool true /\ ~ In e (n_enums s) /\ s' = mkEns (n_enums s ++ [e]) (n_entries s)) \/
               (x = EBool false /\ In e (n_enums s) /\ s' = s)
  | NEntry e n v => (x = EBool true /\ fits s e n v /\ s' = mkEns (n_enums s) (n_entries s ++ [(e, n, v)])) \/
                    (x = EBool false /\ ~ fits s e n v /\ s' = s)
  | NFrom name => s' = s /\
      match x with
      | EV (Some v) => exists e n, In (e, n, v) (n_entries s) /\ name = full_name e n
      | EV None => forall e n v, In (e, n, v) (n_entries s) -> name <> full_name e n
      | _ => False
      end
  | NTo e v => s' = s /\
      match x with
      | EN (Some name) => exists n, In (e, n, v) (n_entries s) /\ name = full_name e n
      | EN None => forall n, ~ In (e, n, v) (n_entries s)
      | _ => False
      end
  end.
Fixpoint ens_run (s : ens) (ops : list nop) (outs : list eout) (s' : ens) : Prop :=
  match ops, outs with
  | [], [] => s' = s
  | o :: ops, x :: outs => exists s1, en_ok s o x s1 /\ ens_run s1 ops outs s'
  | _, _ => False
  end.

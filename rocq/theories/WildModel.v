(** Wildcard patterns: crates/formualizer-eval/src/builtins/lookup/lookup_utils.rs:307-432.
    Text is a list of code points; case folding ([str::to_lowercase]) is a
    parameter of the callers.  Positions in the token list and the text are
    represented by the suffixes they start. *)
From Verif Require Import Base Maps.

Definition STAR : N := 42.   (* '*' *)
Definition QUEST : N := 63.  (* '?' *)
Definition TILDE : N := 126. (* '~' *)

(** :308-312 *)
Inductive wtoken := AnySeq | AnyChar | Lit (l : text).

(** The [if !lit.is_empty() { push }] fragments, :334-339, 343-348, 354-358. *)
Definition flush (lit : text) (tokens : list wtoken) : list wtoken :=
  match lit with [] => tokens | _ => tokens ++ [Lit lit] end.

(** :324-353 *)
Fixpoint tokenize (tokens : list wtoken) (lit : text) (p : text) : list wtoken :=
  match p with
  | [] => flush lit tokens
  | ch :: rest =>
      if N.eqb ch TILDE then
        match rest with
        | next :: rest' => tokenize tokens (lit ++ [next]) rest'
        | [] => tokenize tokens (lit ++ [TILDE]) rest
        end
      else if N.eqb ch STAR then tokenize (flush lit tokens ++ [AnySeq]) [] rest
      else if N.eqb ch QUEST then tokenize (flush lit tokens ++ [AnyChar]) [] rest
      else tokenize tokens (lit ++ [ch]) rest
  end.

(** :360-370 *)
Definition compact_step (compact : list wtoken) (t : wtoken) : list wtoken :=
  match t with
  | AnySeq => match last compact AnyChar with AnySeq => compact | _ => compact ++ [t] end
  | _ => compact ++ [t]
  end.
Definition compile (p : text) : list wtoken :=
  fold_left compact_step (tokenize [] [] p) [].

(** [text[si..si+ll] == lit]: the rest of the text after [lit]. *)
Fixpoint strip (lit t : text) : option text :=
  match lit, t with
  | [], _ => Some t
  | a :: lit', b :: t' => if N.eqb a b then strip lit' t' else None
  | _, [] => None
  end.

(** The loop at :384-422.  [None]: out of fuel (shown never to happen). *)
Fixpoint match_loop (fuel : nat) (toks : list wtoken) (t : text)
    (retry : option (list wtoken * text)) : option bool :=
  match fuel with
  | O => None
  | S fuel =>
      let fail :=
        match retry with
        | Some (rt, _ :: rest) => match_loop fuel rt rest (Some (rt, rest))
        | _ => Some false
        end in
      match toks with
      | [] => match t with [] => Some true | _ => fail end
      | AnySeq :: toks' => match_loop fuel toks' t (Some (toks', t))
      | AnyChar :: toks' =>
          match t with
          | _ :: t' => match_loop fuel toks' t' retry
          | [] => fail
          end
      | Lit l :: toks' =>
          match strip l t with
          | Some t' => match_loop fuel toks' t' retry
          | None => fail
          end
      end
  end.

Definition match_fuel (toks : list wtoken) (t : text) : nat :=
  S ((S (length toks) * S (length t)) * S (length toks) + length toks).

(** :375-423 *)
Definition matches_folded (toks : list wtoken) (t : text) : option bool :=
  match_loop (match_fuel toks t) toks t None.

(** :427-432 *)
Definition wildcard_pattern_match (lower : text -> text) (pattern t : text) : option bool :=
  matches_folded (compile (lower pattern)) (lower t).

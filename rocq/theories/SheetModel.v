(** Sheet names: crates/formualizer-eval/src/engine/sheet_registry.rs and the
    sheet-name part of engine/graph/sheets.rs.

    Text is a list of code points; [str::to_lowercase] is the parameter [lower].
    [id_by_name] is a finite map; [name_by_id] a list.  [SheetId] is [u16]
    (common/src/address.rs:50), so [len() as SheetId] truncates.  Error messages
    are dropped: every error here is [#VALUE!] or [#REF!], kept as a tag. *)
From Verif Require Import Base Maps.
Local Open Scope N_scope.

Definition U16 : N := 65536.

(** sheet_registry.rs:9-12 *)
Record registry := mkReg { by_name : list (text * N); names : list text }.
Definition reg_new : registry := mkReg [] [].

Inductive sheet_error := NoSuchId | NameTaken | InvalidName | NoSuchSheet | LastSheet | RefError.

Definition rget (m : list (text * N)) (k : text) : option N := mget text_eqb m k.
Definition rput (m : list (text * N)) (k : text) (v : N) := mput text_eqb m k v.
Definition rdel (m : list (text * N)) (k : text) := mdel text_eqb m k.

Section Registry.
  Variable lower : text -> text.

  (** :19-32 *)
  Definition id_for (g : registry) (name : text) : registry * N :=
    let key := lower name in
    match rget (by_name g) key with
    | Some id => (g, id)
    | None =>
        let id := N.of_nat (length (names g)) mod U16 in
        (mkReg (rput (by_name g) key id) (names g ++ [name]), id)
    end.

  (** :34-40 *)
  Definition sheet_name (g : registry) (id : N) : text := nth (N.to_nat id) (names g) [].

  (** :42-45 *)
  Definition get_id (g : registry) (name : text) : option N := rget (by_name g) (lower name).

  (** :60-73 *)
  Inductive locator := LId (id : N) | LCurrent | LName (name : text).
  Definition resolve_locator (g : registry) (l : locator) (context : N) : res sheet_error N :=
    match l with
    | LId id => Ok id
    | LCurrent => Ok context
    | LName n => match get_id g n with Some id => Ok id | None => Err RefError end
    end.

  Definition nonempty (t : text) : bool := match t with [] => false | _ => true end.

  (** :76-81 *)
  Definition active_len (g : registry) : nat := length (filter nonempty (names g)).

  (** :84-96 *)
  Definition active_position_by_id (g : registry) (id : N) : option nat :=
    match nth_error (names g) (N.to_nat id) with
    | None => None
    | Some n => if nonempty n then Some (length (filter nonempty (firstn (S (N.to_nat id)) (names g)))) else None
    end.

  (** :99-102 *)
  Definition active_position (g : registry) (name : text) : option nat :=
    match get_id g name with Some id => active_position_by_id g id | None => None end.

  (** :105-109 *)
  Definition active_span_len (g : registry) (first last : text) : option nat :=
    match active_position g first, active_position g last with
    | Some a, Some b => Some ((a - b) + (b - a) + 1)%nat
    | _, _ => None
    end.

  (** :112-119; the cast [id as SheetId] truncates. *)
  Definition all_sheets (g : registry) : list (N * text) :=
    map (fun p => (N.of_nat (fst p) mod U16, snd p))
        (filter (fun p => nonempty (snd p)) (combine (seq 0 (length (names g))) (names g))).

  (** :123-148 *)
  Definition reg_remove (g : registry) (id : N) : res sheet_error registry :=
    match nth_error (names g) (N.to_nat id) with
    | None => Err NoSuchId
    | Some name =>
        if nonempty name then
          Ok (mkReg (rdel (by_name g) (lower name)) (upd (names g) (N.to_nat id) []))
        else Ok g
    end.

  (** :151-186 *)
  Definition reg_rename (g : registry) (id : N) (new_name : text) : res sheet_error registry :=
    match nth_error (names g) (N.to_nat id) with
    | None => Err NoSuchId
    | Some old_name =>
        let taken := match rget (by_name g) (lower new_name) with
                     | Some e => negb (e =? id)
                     | None => false
                     end in
        if taken then Err NameTaken
        else Ok (mkReg (rput (rdel (by_name g) (lower old_name)) (lower new_name) id)
                       (upd (names g) (N.to_nat id) new_name))
    end.

  (** graph/sheets.rs:10-21, registry effect only (healing of orphaned formulas is
      not modelled here). *)
  Definition add_sheet (g : registry) (name : text) : registry * N :=
    match get_id g name with
    | Some id => (g, id)
    | None => id_for g name
    end.

  (** graph/sheets.rs:24-35,188 *)
  Definition remove_sheet (g : registry) (id : N) : res sheet_error registry :=
    match sheet_name g id with
    | [] => Err NoSuchSheet
    | _ => if (length (all_sheets g) <=? 1)%nat then Err LastSheet else reg_remove g id
    end.

  (** graph/sheets.rs:249-268; [bytes] is the UTF-8 length of a text. *)
  Variable bytes : text -> N.
  Definition rename_sheet (g : registry) (id : N) (new_name : text) : res sheet_error registry :=
    if negb (nonempty new_name) || (255 <? bytes new_name) then Err InvalidName else
    match sheet_name g id with
    | [] => Err NoSuchSheet
    | _ =>
        match get_id g new_name with
        | Some e => if negb (e =? id) then Err NameTaken else Ok g
        | None => reg_rename g id new_name
        end
    end.

  (** graph/sheets.rs:297-320, name part *)
  Definition duplicate_sheet (g : registry) (src : N) (new_name : text) : res sheet_error (registry * N) :=
    if negb (nonempty new_name) || (255 <? bytes new_name) then Err InvalidName else
    match sheet_name g src with
    | [] => Err NoSuchSheet
    | _ => match get_id g new_name with
           | Some _ => Err NameTaken
           | None => Ok (add_sheet g new_name)
           end
    end.
End Registry.

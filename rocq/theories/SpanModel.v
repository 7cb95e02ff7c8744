(** Model of yargy/span.py: [get_nexts], [span_size], [resolve_spans]. *)
From Verif Require Import Base.
Open Scope Z_scope.

(** A span is a pair (start, stop); in [Parser.findall] it is the pair of
    column numbers [Tree.range]. *)
Notation span := (Z * Z)%type (only parsing).

(** span.py 29-34: the inner loop of [get_nexts]: the first index whose
    start is [>= stop], or [None] (the bare [yield]). *)
Fixpoint find_next (stop : Z) (index : nat) (spans : list span) : option nat :=
  match spans with
  | [] => None
  | (start, _) :: rest =>
      if stop <=? start then Some index else find_next stop (S index) rest
  end.

(** span.py 27-34. *)
Definition get_nexts (spans : list span) : list (option nat) :=
  map (fun s => find_next (snd s) 0 spans) spans.

(** span.py 37-39. *)
Definition span_size (s : span) : Z := snd s - fst s.

(** Python sets of ints, as lists without repetition. *)
Definition set_add (x : nat) (s : list nat) : list nat :=
  if existsb (Nat.eqb x) s then s else s ++ [x].
Definition set_union (s t : list nat) : list nat :=
  fold_left (fun acc x => set_add x acc) t s.

Definition arrays := (list Z * list (option (list nat)))%type.

(** span.py 61-78: one iteration of the loop at [index].
    - [if next:] is false both for [None] and for index 0;
    - [indexes |= None] raises TypeError. *)
Definition resolve_step (spans : list span) (nexts : list (option nat))
    (a : res arrays) (index : nat) : res arrays :=
  let! (covers, pointers) := a in
  let! s := getitem spans index in
  if Nat.eqb index (length spans - 1) then
    Ok (setitem covers index (span_size s),
        setitem pointers index (Some [index]))
  else
    let! previous := getitem covers (S index) in
    let! next := getitem nexts index in
    let! (cover, indexes) :=
      match next with
      | Some (S n) =>
          let! c := getitem covers (S n) in
          let! p := getitem pointers (S n) in
          match p with
          | Some p => Ok (span_size s + c, set_union [index] p)
          | None => Err TypeError
          end
      | _ => Ok (span_size s, [index])
      end in
    let! (cover, indexes) :=
      if cover <? previous then
        let! p := getitem pointers (S index) in
        Ok (previous, p)
      else Ok (cover, Some indexes) in
    Ok (setitem covers index cover, setitem pointers index indexes).

(** span.py 42-82. *)
Definition resolve_indexes (spans : list span) : res (list nat) :=
  match spans with
  | [] => Ok []
  | _ =>
      let nexts := get_nexts spans in
      let! (_, pointers) :=
        fold_left (resolve_step spans nexts)
          (rev (seq 0 (length spans)))
          (Ok (repeat 0 (length spans), repeat None (length spans))) in
      let! p := getitem pointers 0 in
      match p with
      | Some indexes => Ok (isort Nat.ltb indexes)
      | None => Err TypeError
      end
  end.

Definition resolve_spans (spans : list span) : res (list span) :=
  let! indexes := resolve_indexes spans in
  mapM (getitem spans) indexes.

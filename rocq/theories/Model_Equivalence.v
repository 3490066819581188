(** Model of algorithms/equivalence_relation.cc.

    std::list iterators to blocks are modelled by block identities that are never reused;
    [blocks.end()] is [None].  An iterator to an element of a block is modelled by the
    element itself, which is exact as long as a block never holds an element twice (the
    constructor is given distinct elements; see the theorem's precondition). *)
From Verif Require Import Outcome.

Record block := { bid : nat; belems : list nat; binter : option nat }.   (* .h:18-28 *)
Record eqrel := { er_blocks : list block; er_next : nat; er_pos : list (nat * nat) }.  (* .h:59-69 *)

Definition find_block (bs : list block) (i : nat) : option block := find (fun b => bid b =? i) bs.
Definition set_block (bs : list block) (b' : block) : list block :=
  map (fun b => if bid b =? bid b' then b' else b) bs.

(* element_positions: newest binding first *)
Definition pos_find (ps : list (nat * nat)) (x : nat) : option nat :=
  match find (fun p => fst p =? x) ps with Some p => Some (snd p) | None => None end.

(* .cc:16-20 *)
Definition add_empty_block (r : eqrel) : eqrel * nat :=
  ({| er_blocks := er_blocks r ++ [{| bid := er_next r; belems := []; binter := None |}];
      er_next := S (er_next r); er_pos := er_pos r |}, er_next r).

(* .h:38-40: erase through the iterator to the element *)
Fixpoint erase_elem (x : nat) (l : list nat) : outcome (list nat) :=
  match l with
  | [] => UB
  | y :: t => if y =? x then Ok t else let* t' := erase_elem x t in Ok (y :: t')
  end.

(* .cc:11-12 and 69-72: append [x] to block [i] and record its position *)
Definition insert_elem (r : eqrel) (i x : nat) : outcome eqrel :=
  match find_block (er_blocks r) i with
  | None => UB
  | Some b =>
      Ok {| er_blocks := set_block (er_blocks r) {| bid := bid b; belems := belems b ++ [x]; binter := binter b |};
            er_next := er_next r; er_pos := (x, i) :: er_pos r |}
  end.

(* .cc:8-14 *)
Definition make_eqrel (elements : list nat) : outcome eqrel :=
  let (r, i) := add_empty_block {| er_blocks := []; er_next := 0; er_pos := [] |} in
  fold_outcome (fun r x => insert_elem r i x) elements r.

(* utils/system.h:24-28: ABORT calls abort(), i.e. the process ends by SIGABRT *)
Definition abort_code : Z := -6.

(* .cc:46-73: one iteration; the second component is modified_blocks *)
Definition refine_step (st : eqrel * list nat) (x : nat) : outcome (eqrel * list nat) :=
  let (r, modified) := st in
  match pos_find (er_pos r) x with
  | None => Exit abort_code
  | Some iB =>
      match find_block (er_blocks r) iB with
      | None => UB
      | Some B0 =>
          let '(r1, modified1) :=
            match binter B0 with
            | Some _ => (r, modified)
            | None =>
                let (r', i) := add_empty_block r in
                ({| er_blocks := set_block (er_blocks r') {| bid := bid B0; belems := belems B0; binter := Some i |};
                    er_next := er_next r'; er_pos := er_pos r' |}, modified ++ [iB])
            end in
          match find_block (er_blocks r1) iB with
          | None => UB
          | Some B1 =>
              let* es := erase_elem x (belems B1) in
              let r2 := {| er_blocks := set_block (er_blocks r1) {| bid := bid B1; belems := es; binter := binter B1 |};
                           er_next := er_next r1; er_pos := er_pos r1 |} in
              match binter B1 with
              | None => UB
              | Some i => let* r3 := insert_elem r2 i x in Ok (r3, modified1)
              end
          end
      end
  end.

(* .cc:76-82: one iteration *)
Definition reset_step (r : eqrel) (i : nat) : outcome eqrel :=
  match find_block (er_blocks r) i with
  | None => UB
  | Some b =>
      let bs := match belems b with
                | [] => filter (fun b' => negb (bid b' =? i)) (er_blocks r)
                | _ => set_block (er_blocks r) {| bid := bid b; belems := belems b; binter := None |}
                end in
      Ok {| er_blocks := bs; er_next := er_next r; er_pos := er_pos r |}
  end.

(* .cc:38-83 *)
Definition refine (r : eqrel) (X : list nat) : outcome eqrel :=
  let* st := fold_outcome refine_step X (r, []) in
  let (r', modified) := st in
  fold_outcome reset_step modified r'.

(* the relation as seen through begin()/end() *)
Definition partition_of (r : eqrel) : list (list nat) := map belems (er_blocks r).

Definition refine_all (elements : list nat) (Xs : list (list nat)) : outcome eqrel :=
  let* r := make_eqrel elements in fold_outcome refine Xs r.

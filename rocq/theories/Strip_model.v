(* Removing assertions (src/debug.cc:565-603) and event statements (src/event.cc:68-112): the two passes have one shape. *)
From Verif Require Import Base IR RemoveEmpty_model.
Local Open Scope nat_scope.

Definition is_assertion (k : other_kind) : bool := match k with OAssertValue | OAssertProperty => true | _ => false end.
Definition is_event (k : other_kind) : bool := match k with OEvent => true | _ => false end.
Section Strip.
  (* the kind of statement that is removed *)
  Variable p : other_kind -> bool.
  Definition sel (s : stmt) : bool := match s with SOther k => p k | _ => false end.
  (* src/debug.cc:583-596 process_block, called for every scoped block on the way down *)
  Fixpoint strip1 (s : stmt) : stmt :=
    let fix blk (l : list stmt) : list stmt := match l with [] => [] | x :: r => if sel x then blk r else strip1 x :: blk r end in
    match s with
    | SIf c t f => SIf c (blk t) (blk f)
    | SSwitch e cs d => SSwitch e ((fix go (l : list (Z * list stmt)) := match l with [] => [] | cb :: r => (fst cb, blk (snd cb)) :: go r end) cs) (match d with None => None | Some b => Some (blk b) end)
    | SFor i a b st body => SFor i a b st (blk body)
    | SBlock body => SBlock (blk body)
    | s => s
    end.
  Fixpoint strip (l : list stmt) : list stmt := match l with [] => [] | x :: r => if sel x then strip r else strip1 x :: strip r end.
  (* src/stmt.hh:320-412: the kinds of blocks.  The visitor has no method for the last four (a latch block accepts no visitor at
     all), so that their own statements stay; blocks inside of them are scoped blocks. *)
  Inductive bkind := BComb | BSeq | BLatch | BInitial | BFinal | BFunction.
  Definition visited (k : bkind) : bool := match k with BComb | BSeq => true | _ => false end.
  Definition strip_block (k : bkind) (l : list stmt) : list stmt := if visited k then strip l else map strip1 l.
  (* statements of a generator: blocks, and assertions or events of its own (src/debug.cc:567-577) *)
  Inductive gitem := GOther (k : other_kind) | GBlock (k : bkind) (body : list stmt).
  Fixpoint strip_gen (l : list gitem) : list gitem :=
    match l with
    | [] => []
    | GOther k :: r => if p k then strip_gen r else GOther k :: strip_gen r
    | GBlock k b :: r => GBlock k (strip_block k b) :: strip_gen r
    end.
  (* src/debug.cc:599-604: then the empty blocks are removed; functions are not statements of the generator *)
  Fixpoint tidy_gen (l : list gitem) : outcome (list gitem) :=
    match l with
    | [] => Ok []
    | GBlock BFunction b :: r => olet t := tidy_gen r in Ok (GBlock BFunction b :: t)
    | GBlock k b :: r => olet b' := remove_empty_process b in olet t := tidy_gen r in Ok (match b' with None => t | Some x => GBlock k x :: t end)
    | g :: r => olet t := tidy_gen r in Ok (g :: t)
    end.
  Definition remove_stmts (l : list gitem) : outcome (list gitem) := tidy_gen (strip_gen l).
End Strip.
Definition remove_assertion := remove_stmts is_assertion.
Definition remove_event_stmts := remove_stmts is_event.

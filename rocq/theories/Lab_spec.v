(* The names of blocks and the comments of children. *)
From Verif Require Import Base.
Local Open Scope list_scope.

(* Generators and blocks are numbered.  A block is named in a generator; a generator gets a variable; the statements of the first generator
   go to the second, into which it is inlined *)
Inductive call := Label (g : nat) (n : string) (b : nat) | Var (g : nat) (n : string) | Inline (d g : nat).
(* in a generator a name belongs to the block that got it first *)
Definition given (h : list call) (g : nat) (n : string) (b : nat) : Prop :=
  exists h1 h2, h = h1 ++ Label g n b :: h2 /\ forall c, ~ In (Label g n c) h1.
(* nothing is inlined, and every block is named in its generator *)
Definition at_home (home : nat -> nat) (h : list call) : Prop :=
  forall c, In c h -> match c with Label g _ b => home b = g | Var _ _ => True | Inline _ _ => False end.

(* Children of one generator by the names of their instances: a new one, a comment, another name, one that is taken out *)
Inductive kcall := New (n : string) | Comment (n t : string) | Rename (n m : string) | Drop (n : string).
(* children with what was said of them *)
Definition kids := list (string * option string).
Definition names (k : kids) : list string := map fst k.
(* every child is commented on at most once, and only while it is there; what is refused changes nothing *)
Inductive story : list kcall -> kids -> Prop :=
| S_none : story [] []
| S_new h k n : story h k -> ~ In n (names k) -> story (h ++ [New n]) (k ++ [(n, None)])
| S_again h k n : story h k -> In n (names k) -> story (h ++ [New n]) k
| S_comment h k1 k2 n t : story h (k1 ++ (n, None) :: k2) -> story (h ++ [Comment n t]) (k1 ++ (n, Some t) :: k2)
| S_rename h k1 k2 n m o : story h (k1 ++ (n, o) :: k2) -> ~ In m (names (k1 ++ (n, o) :: k2)) -> story (h ++ [Rename n m]) (k1 ++ (m, o) :: k2)
| S_taken h k n m : story h k -> ~ In n (names k) \/ In m (names k) -> story (h ++ [Rename n m]) k
| S_drop h k1 k2 n o : story h (k1 ++ (n, o) :: k2) -> story (h ++ [Drop n]) (k1 ++ k2)
| S_missing h k n : story h k -> ~ In n (names k) -> story (h ++ [Drop n]) k.

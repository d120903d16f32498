(* src/pass.cc:32-91 uniquify_generators and src/context.cc:56-91 *)
From Verif Require Import Base Num_model Name_model Uniq_spec.
Local Open Scope Z_scope.
Local Open Scope string_scope.

(* The Context: modules_ (std::map from name to std::set of modules; the set is ordered by
   address, so its order here is arbitrary) and the name of each module.  Hashes, the external
   flag and tracking do not change during the pass.  Clones are left out. *)
Record ctx := { c_mods : list (string * list nat); c_name : nat -> string }.
Record info := { n_hash : nat -> option Z; n_ext : nat -> bool; n_track : bool; n_tracked : nat -> bool }.

Definition mem (g : nat) (l : list nat) : bool := existsb (Nat.eqb g) l.
Definition set_key {A} (m : list (string * A)) (k : string) (v : A) : list (string * A) :=
  match find_key m k with
  | None => (m ++ [(k, v)])%list
  | Some _ => map (fun p => if (fst p =? k) then (fst p, v) else p) m
  end.
Definition set_name (f : nat -> string) (g : nat) (s : string) : nat -> string :=
  fun i => if Nat.eqb i g then s else f i.
(* src/context.cc:64-87 change_generator_name; the context check is left out (one context) *)
Definition change_name (c : ctx) (g : nat) (new : string) : outcome ctx :=
  if (new =? "") || (c_name c g =? "") then Ok {| c_mods := c_mods c; c_name := set_name (c_name c) g new |}
  else
    match find_key (c_mods c) (c_name c g) with
    | None => Throw
    | Some l =>
        if mem g l then
          let m1 := set_key (c_mods c) (c_name c g) (filter (fun x => negb (Nat.eqb x g)) l) in
          let l2 := match find_key m1 new with Some l2 => l2 | None => [] end in
          Ok {| c_mods := set_key m1 new (if mem g l2 then l2 else (l2 ++ [g])%list); c_name := set_name (c_name c) g new |}
        else Throw
    end.

(* src/pass.cc:48-58: tracked modules are swapped to the front *)
Fixpoint replace {A} (l : list A) (i : nat) (x : A) : list A :=
  match l, i with
  | [], _ => []
  | _ :: r, O => x :: r
  | a :: r, S j => a :: replace r j x
  end.
Definition swap (l : list nat) (i j : nat) : list nat :=
  match nth_error l i, nth_error l j with
  | Some a, Some b => replace (replace l i b) j a
  | _, _ => l
  end.
Fixpoint reorder (tracked : nat -> bool) (fuel i head : nat) (l : list nat) : list nat :=
  match fuel with
  | O => l
  | S f => match nth_error l i with
           | None => l
           | Some g => if tracked g then reorder tracked f (S i) (S head) (swap l i head)
                       else reorder tracked f (S i) head l
           end
  end.

(* src/pass.cc:71-77: the first unused name_unqN, N a uint32_t *)
Definition unq (k : string) (count : Z) : string := k ++ "_unq" ++ dec count.
Fixpoint unq_loop (fuel : nat) (used : string -> bool) (k : string) (count : Z) : outcome string :=
  match fuel with
  | O => UB                                     (* no unused name: the loop never ends *)
  | S f => if used (unq k count) then unq_loop f used k (u32 (count + 1)) else Ok (unq k count)
  end.
Definition exists_name (c : ctx) (s : string) : bool := match find_key (c_mods c) s with Some _ => true | None => false end.
Fixpoint find_z {A} (m : list (Z * A)) (k : Z) : option A :=
  match m with
  | [] => None
  | (k', v) :: r => if (k =? k')%Z then Some v else find_z r k
  end.
Record gst := { s_ctx : ctx; s_map : list (Z * nat); s_new : list string }.
(* src/pass.cc:61-86: one module; name_map is s_map, new_names is s_new *)
Definition visit (I : info) (k : string) (s : gst) (g : nat) : outcome gst :=
  match n_hash I g with
  | None => Ok s
  | Some h =>
      match find_z (s_map s) h with
      | None =>
          let m := (s_map s ++ [(h, g)])%list in
          match s_new s with
          | [] => Ok {| s_ctx := s_ctx s; s_map := m; s_new := [c_name (s_ctx s) g] |}
          | _ =>
              olet nm := unq_loop (S (length (c_mods (s_ctx s)))) (exists_name (s_ctx s)) k (u32 (Z.of_nat (length (s_new s)) - 1)) in
              olet c := change_name (s_ctx s) g nm in
              Ok {| s_ctx := c; s_map := m; s_new := insert_name (s_new s) (c_name c g) |}
          end
      | Some r => olet c := change_name (s_ctx s) g (c_name (s_ctx s) r) in
                  Ok {| s_ctx := c; s_map := s_map s; s_new := s_new s |}
      end
  end.
Fixpoint visits (I : info) (k : string) (s : gst) (l : list nat) : outcome gst :=
  match l with
  | [] => Ok s
  | g :: r => olet s' := visit I k s g in visits I k s' r
  end.
Definition instances (I : info) (c : ctx) (k : string) : list nat :=
  let l := filter (fun g => negb (n_ext I g)) (match find_key (c_mods c) k with Some l => l | None => [] end) in
  if n_track I then reorder (n_tracked I) (length l) 0 0 l else l.
(* src/pass.cc:36-89: one name *)
Definition one_name (I : info) (c : ctx) (k : string) : outcome ctx :=
  match find_key (c_mods c) k with
  | None => Ok c
  | Some l0 =>
      let l := filter (fun g => negb (n_ext I g)) l0 in
      if Nat.eqb (length l) 1 then Ok c
      else olet s := visits I k {| s_ctx := c; s_map := []; s_new := [] |} (instances I c k) in Ok (s_ctx s)
  end.
(* the names are an unordered set: any order *)
Fixpoint uniquify (I : info) (c : ctx) (names : list string) : outcome ctx :=
  match names with
  | [] => Ok c
  | k :: r => olet c' := one_name I c k in uniquify I c' r
  end.

(* A context as the API builds it (src/context.cc:11-31, 64-87): one entry per name, each module
   listed once and under its own name. *)
Definition well_placed (c : ctx) : Prop :=
  NoDup (map fst (c_mods c)) /\
  forall k l, In (k, l) (c_mods c) -> k <> "" /\ NoDup l /\ forall g, In g l -> c_name c g = k.
Definition in_design (c : ctx) (g : nat) : Prop := exists l, In (c_name c g, l) (c_mods c) /\ In g l.
Definition design_of (I : info) (c : ctx) : design :=
  {| ds_in := in_design c; ds_name := c_name c; ds_hash := n_hash I; ds_ext := fun g => n_ext I g = true |}.

(* What giving modules unique names should achieve. *)
From Verif Require Import Base.
Local Open Scope Z_scope.

(* the modules of a design: which exist, their names, structural hashes (None: not hashed) and
   whether they are external *)
Record design := { ds_in : nat -> Prop; ds_name : nat -> string; ds_hash : nat -> option Z; ds_ext : nat -> Prop }.
(* modules whose name may be changed *)
Definition renamable (d : design) (g : nat) : Prop := ds_in d g /\ ~ ds_ext d g /\ ds_hash d g <> None.

(* new: the names afterwards *)
Record unique_names (d : design) (new : nat -> string) : Prop := {
  (* same name before: same name after exactly when the hashes agree *)
  un_class : forall g h, renamable d g -> renamable d h -> ds_name d g = ds_name d h ->
      (new g = new h <-> ds_hash d g = ds_hash d h);
  (* different names stay different *)
  un_apart : forall g h, ds_in d g -> ds_in d h -> ds_name d g <> ds_name d h -> new g <> new h;
  (* nothing else is renamed *)
  un_keep : forall g, ds_in d g -> ~ renamable d g -> new g = ds_name d g;
  (* a new name was not the name of any module *)
  un_fresh : forall g h, ds_in d g -> ds_in d h -> new g <> ds_name d g -> new g <> ds_name d h;
  (* somebody keeps the old name *)
  un_kept : forall g, renamable d g -> exists h, renamable d h /\ ds_name d h = ds_name d g /\ new h = ds_name d g
}.

(* The name tables of a Generator (src/generator.cc). *)
From Verif Require Import Base Name_spec Num_model.
Local Open Scope Z_scope.
Local Open Scope string_scope.

(* Var objects (src/expr.cc:848-875, src/port.cc:17-39).  o_used: sources_ or sinks_ is not empty.
   Object identity is a number, so that two names can be seen to mean one object. *)
Record obj := { o_name : string; o_width : Z; o_size : list Z; o_signed : bool;
                o_port : option direction; o_used : bool }.
(* src/generator.hh: vars_ (std::map, at most one entry per key; the order plays no role for
   lookups), ports_ (std::set), params_ and the objects created so far *)
Record gen := { g_vars : list (string * nat); g_ports : list string; g_params : list (string * nat);
                g_heap : nat -> obj; g_next : nat }.
Definition null_obj : obj :=
  {| o_name := ""; o_width := 0; o_size := []; o_signed := false; o_port := None; o_used := false |}.
Definition empty_gen : gen :=
  {| g_vars := []; g_ports := []; g_params := []; g_heap := fun _ => null_obj; g_next := 0%nat |}.

Fixpoint find_key {A} (m : list (string * A)) (k : string) : option A :=
  match m with
  | [] => None
  | (k', v) :: r => if (k =? k')%string then Some v else find_key r k
  end.
(* std::map::emplace: no effect when the key exists *)
Definition emplace {A} (m : list (string * A)) (k : string) (v : A) : list (string * A) :=
  match find_key m k with Some _ => m | None => m ++ [(k, v)] end.
Definition erase {A} (m : list (string * A)) (k : string) : list (string * A) :=
  filter (fun p => negb (fst p =? k)%string) m.
Definition has (l : list string) (k : string) : bool := existsb (String.eqb k) l.
Definition insert_name (l : list string) (k : string) : list string := if has l k then l else l ++ [k].
Definition erase_name (l : list string) (k : string) : list string := filter (fun x => negb (x =? k)%string) l.

(* src/generator.cc:115-118 get_var *)
Definition get_var (g : gen) (n : string) : option nat := find_key (g_vars g) n.
(* src/generator.cc:202-206 get_port: vars_.at throws on a missing key; static_pointer_cast of an
   object that is not a Port is undefined behaviour once the result is used *)
Definition get_port (g : gen) (n : string) : outcome (option nat) :=
  if has (g_ports g) n then
    match get_var g n with
    | None => Throw
    | Some v => match o_port (g_heap g v) with Some _ => Ok (Some v) | None => UB end
    end
  else Ok None.
(* src/expr.cc:53-59 Var::width without a width parameter *)
Definition width_of (o : obj) : Z := fold_left (fun w i => u32 (w * i)) (o_size o) (o_width o).

Section ops.
  Variable valid : string -> bool.      (* src/syntax.cc:268 is_valid_variable_name *)
  Definition new_obj (g : gen) (o : obj) : gen * nat :=
    ({| g_vars := g_vars g; g_ports := g_ports g; g_params := g_params g;
        g_heap := fun i => if Nat.eqb i (g_next g) then o else g_heap g i; g_next := S (g_next g) |}, g_next g).
  (* src/expr.cc:860-875: the constructor rejects keywords and zero width *)
  Definition ctor_ok (n : string) (w : Z) : bool := valid n && negb (w =? 0)%Z.
  Definition with_vars (g : gen) (vs : list (string * nat)) : gen :=
    {| g_vars := vs; g_ports := g_ports g; g_params := g_params g; g_heap := g_heap g; g_next := g_next g |}.
  Definition with_ports (g : gen) (ps : list string) : gen :=
    {| g_vars := g_vars g; g_ports := ps; g_params := g_params g; g_heap := g_heap g; g_next := g_next g |}.

  (* src/generator.cc:92-104 var *)
  Definition decl_var (g : gen) (n : string) (w : Z) (size : list Z) (sg : bool) : gen * outcome nat :=
    match get_var g n with
    | Some v => let o := g_heap g v in
                if negb (width_of o =? w)%Z || negb (Bool.eqb (o_signed o) sg) then (g, Throw) else (g, Ok v)
    | None => if ctor_ok n w
              then let (g1, v) := new_obj g {| o_name := n; o_width := w; o_size := size; o_signed := sg;
                                               o_port := None; o_used := false |} in
                   (with_vars g1 (emplace (g_vars g1) n v), Ok v)
              else (g, Throw)
    end.
  (* src/generator.cc:136-142 port, 231-236 add_port_name.  The port type is left out: it only
     adds a width check in the constructor. *)
  Definition decl_port (g : gen) (p : direction) (n : string) (w : Z) (size : list Z) (sg : bool) : gen * outcome nat :=
    if ctor_ok n w then
      let (g1, v) := new_obj g {| o_name := n; o_width := w; o_size := size; o_signed := sg;
                                  o_port := Some p; o_used := false |} in
      if has (g_ports g) n then (g, Throw)
      else (with_ports (with_vars g1 (emplace (g_vars g1) n v)) (insert_name (g_ports g1) n), Ok v)
    else (g, Throw).
  (* src/generator.cc:268-275 enum_var *)
  Definition decl_enum_var (g : gen) (n : string) (w : Z) : gen * outcome nat :=
    match get_var g n with
    | Some _ => (g, Throw)
    | None => if ctor_ok n w
              then let (g1, v) := new_obj g {| o_name := n; o_width := w; o_size := [1]; o_signed := false;
                                               o_port := None; o_used := false |} in
                   (with_vars g1 (emplace (g_vars g1) n v), Ok v)
              else (g, Throw)
    end.
  (* src/expr.cc: an assignment adds to sources_ and sinks_ *)
  Definition set_obj (g : gen) (v : nat) (o : obj) : gen :=
    {| g_vars := g_vars g; g_ports := g_ports g; g_params := g_params g;
       g_heap := fun i => if Nat.eqb i v then o else g_heap g i; g_next := g_next g |}.
  Definition mark_used (o : obj) : obj :=
    {| o_name := o_name o; o_width := o_width o; o_size := o_size o; o_signed := o_signed o; o_port := o_port o; o_used := true |}.
  Definition with_name (o : obj) (n : string) : obj :=
    {| o_name := n; o_width := o_width o; o_size := o_size o; o_signed := o_signed o; o_port := o_port o; o_used := o_used o |}.
  Definition use_var (g : gen) (n : string) : gen * outcome nat :=
    match get_var g n with
    | Some v => (set_obj g v (mark_used (g_heap g v)), Ok v)
    | None => (g, Throw)
    end.
  (* src/generator.cc:596-611 reindex_vars *)
  Definition reindex_vars (g : gen) : gen :=
    {| g_vars := fold_left (fun m kv => emplace m (o_name (g_heap g (snd kv))) (snd kv)) (g_vars g) [];
       g_ports := fold_left (fun l kv => match o_port (g_heap g (snd kv)) with
                                         | Some _ => insert_name l (o_name (g_heap g (snd kv)))
                                         | None => l
                                         end) (g_vars g) [];
       g_params := g_params g; g_heap := g_heap g; g_next := g_next g |}.
  (* python/kratos_expr.cc:461-483 Var.rename, called on the object found under the name a *)
  Definition rename (g : gen) (a b : string) : gen * outcome nat :=
    match get_var g a with
    | None => (g, Throw)
    | Some v => if (o_name (g_heap g v) =? b)%string then (g, Ok v)
                else match get_var g b with
                     | Some _ => (g, Throw)
                     | None => (reindex_vars (set_obj g v (with_name (g_heap g v) b)), Ok v)
                     end
    end.
  (* src/generator.cc:585-594 rename_var: the node handle is dropped when the key exists *)
  Definition rename_var (g : gen) (a b : string) : gen :=
    match get_var g a with
    | None => g
    | Some v => let g1 := set_obj g v (with_name (g_heap g v) b) in
                with_vars g1 (emplace (erase (g_vars g) a) b v)
    end.
  (* src/generator.cc:1270-1283 remove_var *)
  Definition remove_var (g : gen) (n : string) : gen * outcome unit :=
    match get_var g n with
    | None => (g, Throw)
    | Some v => if o_used (g_heap g v) then (g, Throw) else (with_vars g (erase (g_vars g) n), Ok tt)
    end.
  (* src/generator.cc:578-583 remove_port *)
  Definition remove_port (g : gen) (n : string) : gen * outcome unit :=
    if has (g_ports g) n then remove_var (with_ports g (erase_name (g_ports g) n)) n else (g, Ok tt).

  (* src/generator.cc:214-229 parameter without and with a width *)
  Definition parameter (g : gen) (n : string) : gen * outcome nat :=
    let (g1, v) := new_obj g {| o_name := n; o_width := 32; o_size := [1]; o_signed := false; o_port := None; o_used := false |} in
    ({| g_vars := g_vars g1; g_ports := g_ports g1; g_params := emplace (g_params g1) n v; g_heap := g_heap g1; g_next := g_next g1 |}, Ok v).
  Definition parameter_w (g : gen) (n : string) (w : Z) : gen * outcome nat :=
    match find_key (g_params g) n with
    | Some _ => (g, Throw)
    | None => if ctor_ok n w then
        let (g1, v) := new_obj g {| o_name := n; o_width := w; o_size := [1]; o_signed := false; o_port := None; o_used := false |} in
        ({| g_vars := g_vars g1; g_ports := g_ports g1; g_params := emplace (g_params g1) n v; g_heap := g_heap g1; g_next := g_next g1 |}, Ok v)
      else (g, Throw)
    end.

  (* src/generator.cc:738-779 interface with variables only: the key is "iface.n", the name is n *)
  Definition interface_var (g : gen) (iface n : string) (w : Z) : gen :=
    let (g1, v) := new_obj g {| o_name := n; o_width := w; o_size := [1]; o_signed := false; o_port := None; o_used := false |} in
    with_vars g1 (emplace (g_vars g1) (iface ++ "." ++ n) v).

  Definition step (g : gen) (a : action) : gen * outcome unit :=
    match a with
    | DeclVar n w size sg => let (g', r) := decl_var g n w size sg in (g', omap (fun _ => tt) r)
    | DeclPort p n w size sg => let (g', r) := decl_port g p n w size sg in (g', omap (fun _ => tt) r)
    | DeclEnumVar n w => let (g', r) := decl_enum_var g n w in (g', omap (fun _ => tt) r)
    | Use n => let (g', r) := use_var g n in (g', omap (fun _ => tt) r)
    | Rename a b => let (g', r) := rename g a b in (g', omap (fun _ => tt) r)
    | RemovePort n => remove_port g n
    | RemoveVar n => remove_var g n
    end.
  Definition play (g : gen) (l : list action) : gen := fold_left (fun g a => fst (step g a)) l g.
End ops.

(* what a lookup shows *)
Definition shown (g : gen) (v : nat) : decl :=
  let o := g_heap g v in
  {| dc_width := o_width o; dc_size := o_size o; dc_signed := o_signed o; dc_port := o_port o; dc_used := o_used o |}.
Definition lookup (g : gen) (n : string) : option decl := option_map (shown g) (get_var g n).
Definition lookup_port (g : gen) (n : string) : outcome (option decl) := omap (option_map (shown g)) (get_port g n).

(* src/generator.cc:550-576 get_unique_variable_name.  count is a uint32_t. *)
Definition base_name (prefix name : string) : string :=
  match prefix with EmptyString => name | _ => prefix ++ "_" ++ name end.
Definition counted (prefix name : string) (count : Z) : string := base_name prefix name ++ "_" ++ dec count.
Fixpoint unique_loop (fuel : nat) (taken : string -> bool) (prefix name : string) (count : Z) : option string :=
  match fuel with
  | O => None
  | S f => if taken (counted prefix name count) then unique_loop f taken prefix name (u32 (count + 1))
           else Some (counted prefix name count)
  end.
Definition taken (g : gen) (n : string) : bool := match get_var g n with Some _ => true | None => false end.
(* None: the loop does not end within the given number of rounds *)
Definition unique_name (fuel : nat) (g : gen) (prefix name : string) : option string :=
  if taken g (base_name prefix name) then unique_loop fuel (taken g) prefix name 0 else Some (base_name prefix name).
Definition get_unique_variable_name (g : gen) (prefix name : string) : option string :=
  unique_name (S (length (g_vars g))) g prefix name.

(* src/generator.cc:694-737 transfer_content, the variables.  Ids of both generators live in one
   heap (they are pointers): the child's table is a list of keys and ids.  Statement moves,
   parameters and connection moves of ports are left out. *)
Definition transfer_one (valid : string -> bool) (child : gen) (prefix : string) (acc : gen * outcome unit) (kv : string * nat) : gen * outcome unit :=
  match acc with
  | (top, Ok _) =>
      let (k, v) := kv in
      let t := if taken top k then match get_unique_variable_name child prefix k with Some x => x | None => k end else k in
      let o := g_heap top v in
      let top1 := set_obj top v (with_name o t) in
      match o_port o with
      | Some _ => let (g', r) := decl_var valid top1 t (o_width o) (o_size o) (o_signed o) in (g', omap (fun _ => tt) r)
      | None => (with_vars top1 (emplace (g_vars top1) t v), Ok tt)
      end
  | _ => acc
  end.
Definition transfer_content (valid : string -> bool) (child top : gen) (prefix : string) : gen * outcome unit :=
  fold_left (transfer_one valid child prefix) (g_vars child) (top, Ok tt).

(* Ports copied from ports: src/generator.cc:131-186, 231-236, src/port.cc:17-39, 72-80, 130-133, 159-187, src/expr.cc:859-875,
   python/kratos_generator.cc:85-116, src/codegen.cc:1250-1263.  Not modelled: parameters of widths and sizes (copy_meta_data, which
   Lnk_model has) and attributes. *)
From Verif Require Import Base Cpy_spec.
Local Open Scope Z_scope.
Local Open Scope list_scope.

Definition special (t : ptype) : bool := match t with PData => false | _ => true end.
Section K.
  Variable keyword : string -> bool.
  (* src/expr.cc:859-875, src/port.cc:29-39 *)
  Definition new_port (n : string) (d : dir) (w : Z) (size : list Z) (t : ptype) (s : bool) (k : kind) : outcome port :=
    if keyword n then Throw
    else if w =? 0 then Throw
    else if special t && (1 <? w) then Throw
    else Ok {| p_dir := d; p_width := w; p_size := size; p_type := t; p_signed := s; p_packed := true; p_explicit := false; p_high := None; p_kind := k |}.
  (* src/generator.cc:231-236 add_port_name, 139-140; emplace leaves what is there under the name.  [p] is what the object is at last *)
  Definition add_port (g : gen) (n : string) (p : port) : outcome gen :=
    if existsb (String.eqb n) (g_ports g) then Throw
    else Ok {| g_ports := g_ports g ++ [n];
               g_vars := if existsb (String.eqb n) (map fst (g_vars g)) then g_vars g else g_vars g ++ [(n, Some p)] |}.
  (* src/generator.cc:146-155 *)
  Definition copy_plain (g : gen) (p : port) (n : string) : outcome gen :=
    olet q := new_port n (p_dir p) (p_width p) (p_size p) (p_type p) (p_signed p) Plain in
    add_port g n {| p_dir := p_dir q; p_width := p_width q; p_size := p_size q; p_type := p_type q; p_signed := p_signed q;
                    p_packed := p_packed p; p_explicit := p_explicit p; p_high := p_high q; p_kind := p_kind q |}.
  (* src/expr.cc:1876-1882 *)
  Definition bitwidth (l : list (string * Z)) : Z := fold_left (fun a m => (a + snd m) mod 2 ^ 32) l 0.
  (* src/generator.cc:161-170, src/port.cc:159-165, 184-187: one element, of width 1 until setup_size *)
  Definition copy_struct (g : gen) (p : port) (l : list (string * Z)) (n : string) : outcome gen :=
    olet q := new_port n (p_dir p) 1 [1] PData false (Struct l) in
    add_port g n {| p_dir := p_dir q; p_width := bitwidth l; p_size := p_size q; p_type := p_type q; p_signed := p_signed q;
                    p_packed := p_packed q; p_explicit := p_explicit q; p_high := p_high q; p_kind := p_kind q |}.
  (* src/generator.cc:176-186, src/port.cc:130-133 *)
  Definition copy_enum (g : gen) (p : port) (e : string) (w : Z) (n : string) : outcome gen :=
    olet q := new_port n (p_dir p) w [1] PData false (Enumerated e w) in add_port g n q.

  (* the overloads of Generator::port that take a port; C++ calls the one of the declared type (src/generator.hh) *)
  Inductive overload := OEnum | OPort | OStruct.
  (* a reference to a base class takes an object of a derived one *)
  Definition accepts (o : overload) (k : kind) : bool :=
    match o, k with OPort, _ => true | OEnum, Enumerated _ _ => true | OStruct, Struct _ => true | _, _ => false end.
  Definition call (o : overload) (g : gen) (p : port) (n : string) : outcome gen :=
    match o, p_kind p with
    | OEnum, Enumerated e w => copy_enum g p e w n
    | OStruct, Struct l => copy_struct g p l n
    | _, _ => copy_plain g p n
    end.
  (* python/kratos_generator.cc:89-116: the overloads in the order in which they are registered; the first that accepts is called *)
  Definition registered : list overload := [OEnum; OPort; OStruct].
  Definition python_copy (g : gen) (p : port) (n : string) : outcome gen :=
    match find (fun o => accepts o (p_kind p)) registered with Some o => call o g p n | None => Throw end.
  (* src/codegen.cc:1253-1263: one port of one element, in the wrapper and connected.  The new port is an ordinary one, and has the width, sign
     and packing of the other; an enumeration only takes an enumeration (src/port.cc:135-139) *)
  Definition connect (p : port) : outcome unit :=
    match p_dir p, p_kind p with In_, Enumerated _ _ => Throw | _, _ => Ok tt end.
  Definition wrap (g : gen) (p : port) (n : string) : outcome gen :=
    olet g' := call OPort g p n in olet _ := connect p in Ok g'.
End K.

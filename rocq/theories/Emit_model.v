(* Model of the lines src/codegen.cc writes and notes for debugging (generator->debug is true): what a piece of text is does
   not matter here, only where lines end.  Names and expressions contain no line ends. *)
From Verif Require Import Base Emit_spec.

(* statements.  [c] is whether there is a comment; comments have no line ends (strip_newline, src/codegen.cc:11-20) *)
Inductive st : Type :=
| SAssign (i : nat) (c : bool) (wraps : nat)        (* lines the right side continues on *)
| SReturn (i : nat)
| SCall (i : nat)
| SPlain (i : nat)                                  (* break, delays *)
| SLines (i n : nat)                                (* comments and raw text of n lines *)
| SScope (i : nat) (body : list st)
| SIf (i : nat) (ti : nat) (t : list st) (ei : nat) (e : list st)
| SFor (i : nat) (bi : nat) (body : list st)
| SCase (i : nat) (cases : list (option (nat * bool * list st)))     (* None: no default; labelled *)
| SAssert (i : nat) (els : option st)
| SProperty (i : nat) (action : bool) (els : option st).

Definition comment (c : bool) : list ev := if c then [Text; Nl] else [].
Fixpoint times {A} (n : nat) (l : list A) : list A := match n with O => [] | S n => l ++ times n l end.
Definition direct (s : st) : bool := match s with SAssign _ _ _ | SIf _ _ _ _ _ | SReturn _ => true | _ => false end.
Definition is_assign (s : st) : bool := match s with SAssign _ _ _ => true | _ => false end.

Definition st_id (s : st) : nat :=
  match s with SAssign i _ _ | SReturn i | SCall i | SPlain i | SLines i _ | SScope i _ | SIf i _ _ _ _ | SFor i _ _ | SCase i _ | SAssert i _ | SProperty i _ _ => i end.
Section Code.
  (* the node has a source location and locations are printed as attributes (src/codegen.cc:1212-1217 output_yosys_src) *)
  Variable src : nat -> bool.
  Definition attr (i : nat) : list ev := if src i then [Text; Nl] else [].
  (* src/codegen.cc:27-101  operator<<(AssignStmt), after the comment *)
  Definition assign_code (i : nat) (c : bool) (wraps : nat) : list ev :=
    comment c ++ [Note (NStmt i); Text; Key (NStmt i); Text] ++ times wraps [Nl; Text] ++ [Text; Nl].
  (* src/codegen.cc:425-481  dispatch_node and the functions it calls: 483-494, 496-500, 608-624, 710-790, 790-810, 891-975 *)
  Fixpoint code (s : st) : list ev :=
    attr (st_id s) ++
    match s with
    | SAssign i c w => assign_code i c w
    | SReturn i | SCall i => [Note (NStmt i); Key (NStmt i); Text; Nl]
    | SPlain i => [Text; Nl]
    | SLines i n => times n [Text; Nl]
    | SScope i body => [Note (NStmt i); Key (NStmt i); Text; Nl] ++ flat_map code body ++ [Text; Nl]
    | SIf i ti t ei e =>
        [Note (NStmt i); Key (NStmt i); Text]
        ++ (attr ti ++ [Note (NStmt ti); Key (NStmt ti); Text; Nl] ++ flat_map code t ++ [Text; Nl])
        ++ match e with
           | [] => []
           | [s1] => if direct s1 then [Text; Note (NStmt ei); Key (NStmt ei)] ++ code s1
                     else [Text] ++ (attr ei ++ [Note (NStmt ei); Key (NStmt ei); Text; Nl] ++ (code s1 ++ []) ++ [Text; Nl])
           | _ => [Text] ++ (attr ei ++ [Note (NStmt ei); Key (NStmt ei); Text; Nl] ++ flat_map code e ++ [Text; Nl])
           end
    | SFor i bi body =>
        [Note (NStmt i); Key (NStmt i); Text]
        ++ (attr bi ++ [Note (NStmt bi); Key (NStmt bi); Text; Nl] ++ flat_map code body ++ [Text; Nl])
    | SCase i cases =>
        [Key (NCase i); Text; Nl]
        ++ flat_map (fun c : option (nat * bool * list st) =>
             match c with
             | None => [Text; Nl]
             | Some (bi, labelled, b) =>
                 match b with
                 | [s1] => if negb labelled && is_assign s1 then Text :: code s1
                           else Text :: (attr bi ++ [Note (NStmt bi); Key (NStmt bi); Text; Nl] ++ (code s1 ++ []) ++ [Text; Nl])
                 | _ => Text :: (attr bi ++ [Note (NStmt bi); Key (NStmt bi); Text; Nl] ++ flat_map code b ++ [Text; Nl])
                 end
             end) cases
        ++ [Text; Nl]
    | SAssert i els => Text :: match els with Some s1 => Text :: code s1 | None => [Text; Nl] end
    | SProperty i action els =>
        [Text; Nl; Text; Nl; Text; Nl]
        ++ (if action then Text :: match els with Some s1 => code s1 | None => [Text; Nl] end else [])
    end.

  (* module items *)
  Inductive top : Type :=
  | TStmt (s : st)                                              (* assignments, generated loops and conditions, assertions, raw text *)
  | TFf (i : nat) (c : bool) (body : list st)                   (* src/codegen.cc:533-559 *)
  | TBlock (i : nat) (c : bool) (body : list st)                (* src/codegen.cc:561-624: always_comb, initial, final, always_latch *)
  | TInst (i : nat) (c : bool) (params conns : nat).            (* src/codegen.cc:812-868 *)
  (* src/codegen.cc:1088-1156  generate_port_interface: all connections are noted before the first is printed *)
  Definition conn_code (i n : nat) : list ev :=
    match n with
    | O => [Text; Nl]
    | _ => [Text; Nl] ++ map (fun k => Note (NConn i k)) (seq 0 n) ++ flat_map (fun k => [Text; Key (NConn i k); Text; Nl]) (seq 0 n)
           ++ [Text; Nl; Nl]
    end.
  Definition inst_code (i : nat) (c : bool) (params conns : nat) : list ev :=
    comment c ++ [Note (NStmt i); Key (NStmt i); Text]
    ++ match params with O => [Text] | S n => [Text; Nl] ++ times n [Text; Nl] ++ [Text; Nl] end ++ [Text] ++ conn_code i conns.
  Definition top_code (t : top) : list ev :=
    match t with
    | TStmt s => code s
    | TFf i c body => attr i ++ comment c ++ [Note (NFf i); Nl; Key (NFf i); Text; Nl] ++ flat_map code body ++ [Text; Nl]
    | TBlock i c body => attr i ++ comment c ++ [Note (NStmt i); Key (NStmt i); Text; Nl] ++ flat_map code body ++ [Text; Nl]
    | TInst i c params conns => attr i ++ inst_code i c params conns
    end.
  (* src/codegen.cc:641-708  functions: without ports the line ends with std::endl, which is not counted *)
  Record func := { f_id : nat; f_extern : bool; f_ports : list nat; f_body : list st }.
  Definition func_code (f : func) : list ev :=
    if f_extern f then []
    else [Note (NStmt (f_id f)); Key (NStmt (f_id f)); Text]
         ++ match f_ports f with
            | [] => [Text; Std_nl]
            | ps => [Text; Nl] ++ flat_map (fun p => [Note (NDecl p); Key (NDecl p); Text; Nl]) ps ++ [Text; Nl]
            end
         ++ [Text; Nl] ++ flat_map code (f_body f) ++ [Text; Nl; Text; Nl].
  (* src/codegen.cc:216-243  output_module_def, with 245-254, 281-387, 103-115, 157-170, 1071-1086, 1158-1210 *)
  Record mod_ := { m_pkg : bool; m_imports : nat; m_params : nat; m_ifaces : nat; m_ports : list (nat * bool); m_enums : list (list nat);
                   m_vars : list (nat * bool); m_insts : list (nat * bool * nat); m_funcs : list func; m_stmts : list top }.
  Definition header_code (m : mod_) : list ev :=
    (if m_pkg m then [Text; Nl; Nl; Text; Nl] else [])
    ++ [Note NModule; Key NModule; Text]
    ++ match m_imports m with O => [] | n => Nl :: times n [Text; Nl] end
    ++ match m_params m with O => [] | n => [Text; Nl] ++ times n [Text; Nl] ++ [Text; Nl] end
    ++ [Text; Nl] ++ times (m_ifaces m) [Text; Nl]
    ++ flat_map (fun p : nat * bool => comment (snd p) ++ [Note (NDecl (fst p)); Text; Key (NDecl (fst p)); Text; Nl]) (m_ports m)
    ++ [Text; Nl; Nl]
    ++ flat_map (fun ls => [Text; Nl] ++ flat_map (fun l => [Note (NDecl l); Text; Key (NDecl l); Text; Nl]) ls ++ [Text; Nl]) (m_enums m)
    ++ flat_map (fun v : nat * bool => attr (fst v) ++ comment (snd v) ++ [Note (NDecl (fst v)); Key (NDecl (fst v)); Text; Nl]) (m_vars m)
    ++ flat_map (fun x : nat * bool * nat => comment (snd (fst x)) ++ [Note (NStmt (fst (fst x))); Key (NStmt (fst (fst x))); Text] ++ conn_code (fst (fst x)) (snd x)) (m_insts m).
  Definition module_code (m : mod_) : list ev :=
    header_code m ++ flat_map func_code (m_funcs m) ++ flat_map top_code (m_stmts m) ++ [Text; Nl].
End Code.
(* src/debug.cc:763-772: the module is entered under line 1 *)
Definition module_entry : nat := 1.

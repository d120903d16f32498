(* Model of the enable conditions for the debugger, src/analysis.cc:888-984. *)
From Verif Require Import Base IR IRSem_spec Enable_spec.
Local Open Scope Z_scope.

(* ascending insertion sort: std::sort of distinct values (analysis.cc:952-958) *)
Fixpoint insert_sorted (k : Z) (l : list Z) : list Z :=
  match l with [] => [k] | x :: r => if k <=? x then k :: l else x :: insert_sorted k r end.
Definition sort_consts (l : list Z) : list Z := fold_right insert_sorted [] l.

(* src/analysis.cc:940-966, the default branch: target != (c0 || c1 || ...).  The disjunction
   has one bit and is resized to the width of the target (src/expr.cc:745-767). *)
Definition default_cond (G : tenv) (e : expr) (ks : list Z) : outcome expr :=
  match sort_consts ks with
  | [] => UB (* conditions[0] of an empty vector *)
  | [k] => Ok (EBin Neq e (EConst k (ewidth G e) false))
  | k :: r =>
      Ok (EBin Neq e (EExtend (fold_left (fun a k => EBin LOr a (EConst k (ewidth G e) false)) r
                                         (EConst k (ewidth G e) false)) (ewidth G e)))
  end.
(* src/analysis.cc:920-969: the condition of one branch; None: no condition of its own *)
Definition branch_cond (G : tenv) (s : stmt) (b : branch) : outcome (option (option expr * list stmt)) :=
  match s, b with
  | SIf c t _, BThen => Ok (Some (Some c, t))
  | SIf c _ f, BElse => Ok (Some (Some (EUn UNot c), f))
  | SSwitch e cs _, BCase k =>
      match find (fun cb => fst cb =? k) cs with
      | Some cb => Ok (Some (Some (EBin Eq e (EConst k (ewidth G e) false)), snd cb))
      | None => Ok None
      end
  | SSwitch e cs (Some d), BDefault =>
      olet c := default_cond G e (map fst cs) in Ok (Some (Some c, d))
  | SBlock body, BBody => Ok (Some (None, body))
  | _, _ => Ok None
  end.
(* src/analysis.cc:917-977  get_cond of a statement in the block at path p.  The C++ walks from
   the statement up to the generator; here the walk goes down, [acc] being get_cond of the
   enclosing block.  Ok None: no such path, or no condition. *)
Definition conj (c : option expr) (acc : option expr) : option expr :=
  match c, acc with
  | None, _ => acc
  | Some c, None => Some c
  | Some c, Some a => Some (EBin LAnd c a)
  end.
Fixpoint cond_at (G : tenv) (l : list stmt) (p : path) (acc : option expr) : outcome (option expr) :=
  match p with
  | [] => Ok acc
  | (n, b) :: p' =>
      match nth_error l n with
      | None => Ok None
      | Some s =>
          olet x := branch_cond G s b in
          match x with
          | None => Ok None
          | Some (c, body) => cond_at G body p' (conj c acc)
          end
      end
  end.

(** Trees without the identities of what they declare. *)
From Verif.Base Require Import Base.
From Verif.Syntax Require Import Model.

Definition bare_binder (b : binder) : binder := {| b_id := 0; b_sym := b_sym b |}.
Definition bare_typaram (p : typaram) : typaram := {| tp_binder := bare_binder (tp_binder p); tp_ann := tp_ann p |}.
Definition bare_scheme (s : scheme) : scheme :=
  {| sc_params := map bare_typaram (sc_params s); sc_constrs := sc_constrs s; sc_body := sc_body s |}.
Fixpoint bare_pattern (p : pattern) : pattern :=
  match p with
  | PVar b o => PVar (bare_binder b) (option_map bare_pattern o)
  | PDecon u (Some ps) => PDecon u (Some (map bare_pattern ps))
  | p => p
  end.
Fixpoint bare_expr (e : expr) : expr :=
  match e with
  | EApp f args => EApp (bare_expr f) (map bare_expr args)
  | EAnnotate e t => EAnnotate (bare_expr e) t
  | ELet ds e => ELet (map bare_def ds) (bare_expr e)
  | ESeq es e => ESeq (map bare_expr es) (bare_expr e)
  | EIf a b c => EIf (bare_expr a) (bare_expr b) (bare_expr c)
  | EWhile a b => EWhile (bare_expr a) (bare_expr b)
  | EMatch a cs => EMatch (bare_expr a) (map (fun c => (bare_pattern (fst c), bare_expr (snd c))) cs)
  | EReturn o => EReturn (option_map bare_expr o)
  | e => e
  end
with bare_def (d : def) : def :=
  match d with
  | DVar b t e => DVar (bare_binder b) t (bare_expr e)
  | DFun b sc ps e => DFun (bare_binder b) (option_map bare_scheme sc) (map bare_binder ps) (bare_expr e)
  end.
Definition bare_clause (c : pattern * expr) : pattern * expr := (bare_pattern (fst c), bare_expr (snd c)).

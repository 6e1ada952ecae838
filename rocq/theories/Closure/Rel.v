(** * The relation between a program and the program without local functions *)
From Verif.Base Require Import Base.
From Verif.Ir Require Import Model.
From Verif.Closure Require Import Model Spec.

(** What has become of variables and of local functions. *)
Record sub := Sub { sv : nat -> nat; sf : nat -> option (nat * option nat) }.
Definition unchanged : sub := Sub (fun id => id) (fun _ => None).

Definition renamed (vars news : list nat) (id : nat) : nat := match assoc id (combine vars news) with Some n => n | None => id end.
Definition lifting (m : sub) (lt : list (nat * nat)) (en : option nat) (f : nat) : option (nat * option nat) :=
  match sf m f with
  | Some x => Some x
  | None => match assoc f lt with Some g => Some (g, en) | None => None end
  end.
Definition for_body (m : sub) (lt : list (nat * nat)) (en : option nat) : sub := Sub (sv m) (lifting m lt en).
Definition for_funs (m : sub) (lt : list (nat * nat)) (vars news : list nat) (en : option nat) : sub :=
  Sub (fun id => renamed vars news (sv m id))
    (fun f => match sf m f with
              | Some (g, e) => Some (g, option_map (renamed vars news) e)
              | None => match assoc f lt with Some g => Some (g, en) | None => None end
              end).

Definition fresh (m : sub) (vs fs : list nat) (d : nat) : Prop :=
  sv m d = d /\ ~ In d fs /\ (forall u, In u vs -> sv m u <> d) /\ (forall f g e, In f fs -> sf m f = Some (g, Some e) -> e <> d).

Definition fid (f : nat * list param * ct * expr) : nat := fst (fst (fst f)).
Definition fparams (f : nat * list param * ct * expr) : list param := snd (fst (fst f)).
Definition fret (f : nat * list param * ct * expr) : ct := snd (fst f).

Definition fun_env (en : option nat) (news : list nat) (tys : list ct) : option (nat * list param) :=
  option_map (fun id => (id, combine news tys)) en.

(** What a group of functions captures. *)
Record capture := Capture { lt : list (nat * nat); vars : list nat; news : list nat; tys : list ct; en : option nat; vs1 : list nat; fs1 : list nat }.

Definition captures (m : sub) (vs fs : list nat) (c : capture) : Prop :=
  List.length (vars c) = List.length (news c) /\ List.length (vars c) = List.length (tys c) /\ NoDup (news c) /\
  (en c = None -> vars c = []) /\
  (forall e, en c = Some e -> ~ In e (news c) /\ (forall u, In u vs -> sv m u <> e) /\ (forall f g e', In f fs -> sf m f = Some (g, Some e') -> e' <> e)) /\
  (forall u, In u (vs1 c) -> In u vs /\ In (sv m u) (vars c)) /\
  (forall f, In f (fs1 c) -> In f fs /\ forall g e, sf m f = Some (g, Some e) -> In e (vars c)) /\
  (forall t, In t (vars c) -> (exists u, In u vs /\ t = sv m u) \/ (exists f g, In f fs /\ sf m f = Some (g, Some t))).

Section Conv.
Variable F : nat -> option function.

Definition group_conv (conv : sub -> list nat -> list nat -> expr -> expr -> Prop) (m : sub) (vs fs : list nat) (c : capture)
  (l : list (nat * list param * ct * expr)) : Prop :=
  captures m vs fs c /\
  (forall f, In f l -> sf m (fid f) = None /\ ~ In (fid f) vs /\ ~ In (fid f) fs) /\
  Forall (fun f => let m' := for_funs m (lt c) (vars c) (news c) (en c) in
    exists g y, assoc (fid f) (lt c) = Some g /\ F g = Some (Function (fun_env (en c) (news c) (tys c)) (fparams f) (fret f) y) /\
    Forall (fresh m' (vs1 c) (map fid l ++ fs1 c)) (map fst (fparams f)) /\
    (forall e, en c = Some e -> ~ In e (map fst (fparams f))) /\
    conv m' (map fst (fparams f) ++ vs1 c) (map fid l ++ fs1 c) (snd f) y) l.

Definition construct (c : capture) : expr := EOp (SEnv LHeap) (map (fun p => EVar (fst p) (snd p)) (combine (vars c) (tys c))).

Inductive conv : sub -> list nat -> list nat -> expr -> expr -> Prop :=
| conv_var m vs fs id t : In id vs -> conv m vs fs (EVar id t) (EVar (sv m id) t)
| conv_local m vs fs f t g e : In f fs -> sf m f = Some (g, e) ->
    conv m vs fs (ELocal f t) (EOp (SFun g t) (match e with Some e => [EVar e CtEnv] | None => [] end))
| conv_op m vs fs o es es' : Forall2 (conv m vs fs) es es' -> conv m vs fs (EOp o es) (EOp o es')
| conv_call m vs fs f f' es es' : conv m vs fs f f' -> Forall2 (conv m vs fs) es es' -> conv m vs fs (ECall f es) (ECall f' es')
| conv_seq m vs fs es es' x x' : Forall2 (conv m vs fs) es es' -> conv m vs fs x x' -> conv m vs fs (ESeq es x) (ESeq es' x')
| conv_if m vs fs a b c a' b' c' : conv m vs fs a a' -> conv m vs fs b b' -> conv m vs fs c c' -> conv m vs fs (EIf a b c) (EIf a' b' c')
| conv_while m vs fs a b a' b' : conv m vs fs a a' -> conv m vs fs b b' -> conv m vs fs (EWhile a b) (EWhile a' b')
| conv_and m vs fs a b a' b' : conv m vs fs a a' -> conv m vs fs b b' -> conv m vs fs (EAnd a b) (EAnd a' b')
| conv_or m vs fs a b a' b' : conv m vs fs a a' -> conv m vs fs b b' -> conv m vs fs (EOr a b) (EOr a' b')
| conv_match m vs fs a a' cs cs' : conv m vs fs a a' ->
    Forall2 (fun c c' => fst c = fst c' /\ Forall (fresh m vs fs) (pat_defs (fst c)) /\ conv m (pat_defs (fst c) ++ vs) fs (snd c) (snd c')) cs cs' ->
    conv m vs fs (EMatch a cs) (EMatch a' cs')
| conv_never m vs fs : conv m vs fs ENever ENever
| conv_let_nil m vs fs b b' : conv m vs fs b b' -> conv m vs fs (ELetVar [] b) (ELetVar [] b')
| conv_let m vs fs id t x x' l l' b b' : conv m vs fs x x' -> fresh m vs fs id -> conv m (id :: vs) fs (ELetVar l b) (ELetVar l' b') ->
    conv m vs fs (ELetVar ((id, t, x) :: l) b) (ELetVar ((id, t, x') :: l') b')
| conv_cont_nil m vs fs b b' : conv m vs fs b b' -> conv m vs fs (ELetCont [] b) (ELetCont [] b')
| conv_cont m vs fs id ps x x' l l' b b' : conv m (map fst ps ++ vs) fs x x' -> Forall (fresh m vs fs) (map fst ps) ->
    conv m vs fs (ELetCont l b) (ELetCont l' b') -> conv m vs fs (ELetCont ((id, ps, x) :: l) b) (ELetCont ((id, ps, x') :: l') b')
| conv_group_plain m vs fs c l b y : group_conv conv m vs fs c l -> en c = None ->
    conv (for_body m (lt c) None) vs (map fid l ++ fs) b y -> conv m vs fs (ELetLocal l b) y
| conv_group m vs fs c l b e y : group_conv conv m vs fs c l -> en c = Some e ->
    conv (for_body m (lt c) (Some e)) vs (map fid l ++ fs) b y ->
    conv m vs fs (ELetLocal l b) (ELetVar [(e, CtEnv, construct c)] y)
| conv_group_let m vs fs c l b e l' b' : group_conv conv m vs fs c l -> en c = Some e ->
    conv (for_body m (lt c) (Some e)) vs (map fid l ++ fs) b (ELetVar l' b') ->
    conv m vs fs (ELetLocal l b) (ELetVar ((e, CtEnv, construct c) :: l') b').

(** ** Values *)
Definition closure_of (look : nat -> option value) (g : nat) (e : option nat) : option value :=
  match e with
  | None => Some (VFun g None)
  | Some e => match look e with Some w => Some (VFun g (Some w)) | None => None end
  end.
Definition env_rel (V : value -> value -> Prop) (m : sub) (vs fs : list nat) (e : env) (look : nat -> option value) : Prop :=
  (forall u, In u vs -> exists v w, lookup e u = Some v /\ look (sv m u) = Some w /\ V v w) /\
  (forall f, In f fs -> exists v g en w, lookup e f = Some v /\ sf m f = Some (g, en) /\ closure_of look g en = Some w /\ V v w).

Inductive crel : value -> value -> Prop :=
| crel_static f : crel (VFun f None) (VFun f None)
| crel_static_env f v v' : alike crel v v' -> crel (VFun f (Some v)) (VFun f (Some v'))
| crel_local m vs fs c l e f g ws : group_conv conv m vs fs c l -> In (fid f) (map fid l) -> assoc (fid f) (lt c) = Some g ->
    List.length ws = List.length (vars c) ->
    env_rel (alike crel) m (vs1 c) (fs1 c) e (fun t => assoc t (combine (vars c) ws)) ->
    crel (VLocal l (fid f) e) (VFun g (match en c with Some _ => Some (VEnv ws) | None => None end)).
End Conv.

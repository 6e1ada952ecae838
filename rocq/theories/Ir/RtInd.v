(** Induction on run-time expressions. *)
From Verif.Base Require Import Base.
From Verif.Ir Require Import Model.

(** The direct subexpressions. *)
Definition children (x : rt) : list rt :=
  match x with
  | RVar _ _ | RConst _ | RNullary _ | RNever => []
  | RStaticFun _ _ a => match a with Some a => [a] | None => [] end
  | RCall f es => f :: es
  | RCallC _ _ es | RContCall _ es _ | RConstructEnv _ es | RConstructData _ _ es
  | RConstructStruct _ es => es
  | RCallAddr _ f _ es => f :: es
  | RUnary _ a | RAlloc _ a | RAllocArray _ _ a | RConstructSyntax _ a | RReturn a => [a]
  | RBinary _ a b | RWhile a b | RAnd a b | ROr a b => [a; b]
  | RTernary _ a b c | RIf a b c => [a; b; c]
  | RSeq es a => es ++ [a]
  | RMatch a cs => a :: map snd cs
  | RLetVar vs b => map snd vs ++ [b]
  | RLetCont ks b => map snd ks ++ [b]
  end.

Lemma rt_children_ind (P : rt -> Prop) :
  (forall x, Forall P (children x) -> P x) -> forall x, P x.
Proof.
  intros H. fix IH 1. intro x. apply H.
  assert (L : forall es, Forall P es) by (fix L 1; intros [|a es]; constructor; [apply IH|apply L]).
  assert (L3 : forall A (vs : list (A * rt)), Forall P (map snd vs)).
  { intro A. fix L3 1. intros [|[k a] vs]; constructor; [apply IH|apply L3]. }
  destruct x as [id t|f t o|c|f es|lb r es|k f r es|k es r|o|o a|o a b|o a b c|l a|l t a|l es|t i es|t es
    |m a|es a|a b c|a b|a b|a b|a cs|a| |vs b|ks b]; cbn [children].
  2: destruct o as [a|].
  all: match goal with
    | |- Forall _ (map snd ?v ++ [?b]) => apply Forall_app; split; [exact (L3 _ v)|constructor; [exact (IH b)|constructor]]
    | |- Forall _ (?v ++ [?b]) => apply Forall_app; split; [exact (L v)|constructor; [exact (IH b)|constructor]]
    | |- Forall _ (?a :: map snd ?v) => constructor; [exact (IH a)|exact (L3 _ v)]
    | |- Forall _ [] => constructor
    | |- Forall _ [?a] => constructor; [exact (IH a)|constructor]
    | |- Forall _ [?a; ?b] => constructor; [exact (IH a)|constructor; [exact (IH b)|constructor]]
    | |- Forall _ [?a; ?b; ?c] =>
        constructor; [exact (IH a)|constructor; [exact (IH b)|constructor; [exact (IH c)|constructor]]]
    | |- Forall _ (?a :: ?v) => constructor; [exact (IH a)|exact (L v)]
    | |- Forall _ ?v => exact (L v)
    end.
Qed.

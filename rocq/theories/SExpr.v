(** Specification side of field collection: which fields an expression mentions. *)
From Verif Require Import Base SEvents MExpr.
From Coq Require Import List NArith Arith Lia Bool.
Import ListNotations.

(** [mentions e vs f]: field [f] occurs in [e] at a place where its root is none
    of the variables [vs] bound outside, nor one bound by a loop of [e] around that
    place.  A loop binds its variable in its body only. *)
Inductive mentions : expr -> list nat -> fieldref -> Prop :=
| men_field : forall r p vs, ~ In r vs -> mentions (XField r p) vs (r, p)
| men_func : forall n l x vs f, In x l -> mentions x vs f -> mentions (XFunc n l) vs f
| men_not : forall a vs f, mentions a vs f -> mentions (XNot a) vs f
| men_and : forall l x vs f, In x l -> mentions x vs f -> mentions (XAnd l) vs f
| men_or : forall l x vs f, In x l -> mentions x vs f -> mentions (XOr l) vs f
| men_in : forall m v i s vs f, mentions i vs f -> mentions (XLoop m v i s) vs f
| men_body : forall m v i s vs f, mentions s (v :: vs) f -> mentions (XLoop m v i s) vs f
| men_exists : forall a vs f, mentions a vs f -> mentions (XExists a) vs f
| men_notexists : forall a vs f, mentions a vs f -> mentions (XNotExists a) vs f
| men_l : forall k l r vs f, mentions l vs f -> mentions (XCmp k l r) vs f
| men_r : forall k l r vs f, mentions r vs f -> mentions (XCmp k l r) vs f.

(** The node kinds the collection does not know. *)
Inductive has_unsupported : expr -> Prop :=
| un_true : has_unsupported XTrue
| un_false : has_unsupported XFalse
| un_notexists : forall a, has_unsupported (XNotExists a)
| un_func : forall n l x, In x l -> has_unsupported x -> has_unsupported (XFunc n l)
| un_not : forall a, has_unsupported a -> has_unsupported (XNot a)
| un_and : forall l x, In x l -> has_unsupported x -> has_unsupported (XAnd l)
| un_or : forall l x, In x l -> has_unsupported x -> has_unsupported (XOr l)
| un_in : forall m v i s, has_unsupported i -> has_unsupported (XLoop m v i s)
| un_body : forall m v i s, has_unsupported s -> has_unsupported (XLoop m v i s)
| un_exists : forall a, has_unsupported a -> has_unsupported (XExists a)
| un_l : forall k l r, has_unsupported l -> has_unsupported (XCmp k l r)
| un_r : forall k l r, has_unsupported r -> has_unsupported (XCmp k l r).

(** * C49: what an edit of a syntax tree may change in the printed text

    The purpose of hcl-edit is to change a part of a document and to leave the rest of its text as it
    is.  The changeable parts are places in the tree: a value, some consecutive items of an object, some
    consecutive structures of a body, some consecutive labels of a block.  A place is described by the
    function which puts something there, for instance [fun v => XAttr m k v].  The predicates below
    say which functions describe a place in which kind of node, whatever the depth.

    Left out are places inside quoted templates and inside heredocs with [<<-], where edits are not
    local: the printer's flag for escapes is cleared by every quoted template, and the lines of the
    heredoc are indented as a whole (EditProps has witnesses). *)
From Coq Require Import NArith Bool String List.
From Verif Require Import Res Str NumberModel PrimModel EAst EncModel.
Import ListNotations.
Open Scope N_scope.

(** What a place holds.  A value is printed with the default decor [df] of its place. *)
Inductive hole : Type -> Type :=
| HValue (df : str * str) : hole xexpr
| HItems : hole (list xitem)
| HLines : hole (list xstruct)
| HLabels : hole (list xlabel).

Section Texts.
  Context (show_f64 : f64 -> str).
  (** The texts of a value, an item, a structure and a label printed on their own, with their decor. *)
  Definition value_text (df : str * str) (e : xexpr) : str := fst (x_enc show_f64 df e false).
  Definition item_text (i : xitem) : str := fst (item_enc show_f64 i false).
  Definition struct_text (s : xstruct) : str := fst (s_enc show_f64 NO s false).
  Definition label_text (l : xlabel) : str := fst (label_enc l false).
  (** A structure ends with a line end. *)
  Definition line (s : xstruct) : str := struct_text s ++ [10].
  Definition lines (l : list xstruct) : str := flat_map line l.
  Definition hole_text {A} (h : hole A) : A -> str :=
    match h with
    | HValue df => value_text df
    | HItems => flat_map item_text
    | HLines => lines
    | HLabels => flat_map label_text
    end.
End Texts.

(** The default decor of an element of a comma separated list. *)
Definition elem_df {X} (before : list X) : str * str := match before with [] => NO | _ => LEADING end.

(** The places themselves. *)
Inductive here_expr : forall {A}, hole A -> str * str -> (A -> xexpr) -> Prop :=
| here_value df : here_expr (HValue df) df (fun e => e)
| here_items df m l1 l2 t : here_expr HItems df (fun l => XObj m (l1 ++ l ++ l2) t).
Inductive here_lines : forall {A}, hole A -> (A -> list xstruct) -> Prop :=
| here_structs l1 l2 : here_lines HLines (fun l => l1 ++ l ++ l2).
Inductive here_block : forall {A}, hole A -> (A -> xstruct) -> Prop :=
| here_labels m i l1 l2 b : here_block HLabels (fun l => XBlock m i (l1 ++ l ++ l2) b).

Section Places.
  Context {A : Type} (h : hole A).
  (** Places in an expression which is printed with the default decor [df]. *)
  Inductive in_expr : str * str -> (A -> xexpr) -> Prop :=
  | in_arr df m l1 f l2 c t : in_expr (elem_df l1) f -> in_expr df (fun x => XArr m (l1 ++ f x :: l2) c t)
  | in_value df m l1 k a f t l2 tr : in_expr LEADING f -> in_expr df (fun x => XObj m (l1 ++ XItem k a (f x) t :: l2) tr)
  | in_key df m l1 f a v t l2 tr : in_expr TRAILING f -> in_expr df (fun x => XObj m (l1 ++ XItem (XKExpr (f x)) a v t :: l2) tr)
  | in_heredoc df m d f r : in_tpl f -> in_expr df (fun x => XHeredoc m d (f x) None r)
  | in_paren df m f : in_expr NO f -> in_expr df (fun x => XParen m (f x))
  | in_cond_c df m f e e' : in_expr TRAILING f -> in_expr df (fun x => XCond m (f x) e e')
  | in_cond_t df m f e e' : in_expr BOTH f -> in_expr df (fun x => XCond m e (f x) e')
  | in_cond_f df m f e e' : in_expr LEADING f -> in_expr df (fun x => XCond m e e' (f x))
  | in_arg df m ns n am l1 f l2 ex co t : in_expr (elem_df l1) f -> in_expr df (fun x => XCall m ns n am (l1 ++ f x :: l2) ex co t)
  | in_trav df m f ops : in_expr NO f -> in_expr df (fun x => XTrav m (f x) ops)
  | in_index df m e o1 om f o2 : in_expr NO f -> in_expr df (fun x => XTrav m e (o1 ++ XTrop om (XIndex (f x)) :: o2))
  | in_unary df m sp o f : in_expr NO f -> in_expr df (fun x => XUnary m sp o (f x))
  | in_bin_l df m f om o e : in_expr NO f -> in_expr df (fun x => XBinary m (f x) om o e)
  | in_bin_r df m e om o f : in_expr NO f -> in_expr df (fun x => XBinary m e om o (f x))
  | in_for_coll df m im kv vv f k v g co : in_expr BOTH f -> in_expr df (fun x => XFor m im kv vv (f x) k v g co)
  | in_for_key df m im kv vv c f v g co : in_expr BOTH f -> in_expr df (fun x => XFor m im kv vv c (Some (f x)) v g co)
  | in_for_val df m im kv vv c k f g co : in_expr LEADING f -> in_expr df (fun x => XFor m im kv vv c k (f x) g co)
  | in_for_cond df m im kv vv c k v g cm f : in_expr LEADING f -> in_expr df (fun x => XFor m im kv vv c k v g (Some (XForCond cm (f x))))
  | in_here df f : here_expr h df f -> in_expr df f
  with in_tpl : (A -> xtpl) -> Prop :=
  | in_elem l1 f l2 sp : in_el f -> in_tpl (fun x => XTempl (l1 ++ f x :: l2) sp)
  with in_el : (A -> xelem) -> Prop :=
  | in_interp sp f s : in_expr BOTH f -> in_el (fun x => XInterp sp (f x) s)
  | in_if_c sp p f t s el ep et es : in_expr TRAILING f -> in_el (fun x => XIfD sp p (f x) t s el ep et es)
  | in_if_t sp p c f s el ep et es : in_tpl f -> in_el (fun x => XIfD sp p c (f x) s el ep et es)
  | in_if_e sp p c t s lp lt f ls ep et es : in_tpl f -> in_el (fun x => XIfD sp p c t s (Some (XElse lp lt (f x) ls)) ep et es)
  | in_ford_c sp p kv vv f t s ep et es : in_expr BOTH f -> in_el (fun x => XForD sp p kv vv (f x) t s ep et es)
  | in_ford_t sp p kv vv c f s ep et es : in_tpl f -> in_el (fun x => XForD sp p kv vv c (f x) s ep et es).

  (** Is the body of a block printed on the line of the block's name? *)
  Definition same_line (b : xbody) : bool := match b with XBody _ l one _ => one && oneline_ok l end.
  (** Places in a list of structures.  Structures inside a block may be exchanged as long as that does
      not change whether its body is printed on one line. *)
  Inductive in_lines : (A -> list xstruct) -> Prop :=
  | in_struct l1 f l2 : in_one f -> in_lines (fun x => l1 ++ f x :: l2)
  | in_here_lines f : here_lines h f -> in_lines f
  with in_one : (A -> xstruct) -> Prop :=
  | in_attr m k f : in_expr LEADING f -> in_one (fun x => XAttr m k (f x))
  | in_block m i ls bm f one om :
      in_lines f -> (forall x, same_line (XBody bm (f x) one om) = false) ->
      in_one (fun x => XBlock m i ls (XBody bm (f x) one om))
  | in_line m i ls bm am k f om :
      in_expr LEADING f ->
      in_one (fun x => XBlock m i ls (XBody bm [XAttr am k (f x)] true om))
  | in_here_block f : here_block h f -> in_one f.
End Places.

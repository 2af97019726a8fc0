(** Specification of the document tree. *)
Require Import List Ascii String Arith.
Require Import Verif.Base Verif.Dom_Model.
Import ListNotations.

(** The events of an XML element, as an XML parser reports them; namespace declarations may come in between. *)
Fixpoint events (t : xtree) : list ev :=
  match t with X tag attrs _ kids => Start tag attrs :: flat_map events kids ++ [End] end.
Definition no_ns (e : ev) : bool := match e with StartNs _ _ => false | _ => true end.
Definition reports (evs : list ev) (t : xtree) : Prop := filter no_ns evs = events t.
(** The names of elements: local, or with the address of a namespace in braces. *)
Definition et_name (tag : text) : Prop :=
  (~ In "{"%char tag) \/ exists uri name, tag = "{"%char :: uri ++ "}"%char :: name /\ ~ In "}"%char uri.
Fixpoint strip_prefix (p s : text) : option text :=
  match p, s with [], _ => Some s | a :: p, b :: s => if aeqb a b then strip_prefix p s else None | _, [] => None end.
(** The name of an element without the namespace of SVG. *)
Definition svg_name (tag : text) : text :=
  match strip_prefix (T "{http://www.w3.org/2000/svg}"%string) tag with Some n => n | None => tag end.
(** The class for an element of SVG; others are plain nodes. *)
Definition element_classes : list (string * cls) := [
  ("svg", CSVG); ("g", CGroup); ("use", CUse); ("script", CScript); ("a", CHyperlink); ("text", CText); ("tspan", CTSpan);
  ("path", CPath); ("line", CLine); ("rect", CRect); ("circle", CCircle); ("ellipse", CEllipse); ("polyline", CPolyline);
  ("polygon", CPolygon); ("image", CImage); ("title", CTitle); ("desc", CDesc); ("pattern", CPattern); ("mask", CMask); ("clip-path", CClipPath)]%string.
Definition svg_class (tag : text) : cls :=
  match find (fun p => teqb (T (fst p)) (svg_name tag)) element_classes with Some p => snd p | None => CNode end.
(** Elements that cannot be read. *)
Definition unreadable : list text := map T ["defs"; "symbol"; "marker"; "style"; "metadata"; "lineargradient"; "radialgradient"]%string.

(** The tree below object [i] is [t]: classes, attributes in order, children in order. *)
Section Rep.
  Variable class : text -> cls.
  Fixpoint represents (d : dom) (t : xtree) (i : nat) : Prop :=
    match t with X tag attrs _ kids =>
      exists n, get d i = Some n /\ n_cls n = class tag /\ n_attrs n = Some (map (fun x => (fst x, VText (snd x))) attrs) /\
        (fix all (ts : list xtree) (is : list nat) : Prop :=
           match ts, is with
           | [], [] => True
           | t :: ts, i :: is => represents d t i /\ all ts is
           | _, _ => False
           end) kids (n_kids n)
    end.
End Rep.
(** Every element of a tree. *)
Inductive element : xtree -> xtree -> Prop :=
| element_self t : element t t
| element_kid tag a b kids k t : In k kids -> element k t -> element (X tag a b kids) t.
Definition tag_name (t : xtree) : text := match t with X tag _ _ _ => tag end.
Definition tag_attrs (t : xtree) : dict text := match t with X _ a _ _ => a end.
Definition tag_kids (t : xtree) : list xtree := match t with X _ _ _ k => k end.

(** Trees that can be read: proper names, none of the elements above, nothing in a mask. *)
Definition legible (t : xtree) : Prop :=
  forall e, element t e -> et_name (tag_name e) /\ ~ In (svg_name (tag_name e)) unreadable /\ (svg_name (tag_name e) = T "mask"%string -> tag_kids e = []).
(** Elements and objects by position: the first child is 0. *)
Fixpoint sub (t : xtree) (path : list nat) : option xtree :=
  match path with [] => Some t | k :: r => match nth_error (tag_kids t) k with Some c => sub c r | None => None end end.
Fixpoint walk (d : dom) (i : nat) (path : list nat) : option nat :=
  match path with
  | [] => Some i
  | k :: r => match get d i with Some n => match nth_error (n_kids n) k with Some j => walk d j r | None => None end | None => None end
  end.
(** Document order of positions. *)
Inductive before : list nat -> list nat -> Prop :=
| before_in k r : before [] (k :: r)
| before_kid j k r s : j < k -> before (j :: r) (k :: s)
| before_deep k r s : before r s -> before (k :: r) (k :: s).
Definition has_id (id : text) (e : xtree) : Prop := dget (T "id"%string) (tag_attrs e) = Some id.

(** Parents and children agree, every object but the document has a parent, and knows the document. *)
Definition linked (d : dom) : Prop :=
  (exists n, get d 0 = Some n /\ n_parent n = None) /\
  (forall i n, get d i = Some n -> n_doc n = Some 0) /\
  (forall i n, get d i = Some n -> i <> 0 -> exists p m, n_parent n = Some p /\ get d p = Some m /\ In i (n_kids m)) /\
  (forall p m, get d p = Some m -> NoDup (n_kids m) /\ forall i, In i (n_kids m) -> exists n, get d i = Some n /\ n_parent n = Some p).
(** Following parents ends at the document. *)
Inductive below (d : dom) : nat -> Prop :=
| below_doc : below d 0
| below_kid i n p : get d i = Some n -> n_parent n = Some p -> below d p -> below d i.
(** What a program can do: read a source below any object, or call a builder on any object. *)
Inductive action := Read (i : nat) (evs : list ev) | Build (i : nat) (name : text) (args : list value) (kwargs : dict value).
Definition act (d : dom) (a : action) : dom :=
  match a with Read i evs => fst (parse d i evs) | Build i name args kwargs => fst (build d i name args kwargs) end.
(** Keys are not repeated in what a program passes: neither XML nor Python permits it. *)
Definition keyed {A} (d : dict A) : Prop := NoDup (map fst d).
Definition sane (a : action) : Prop :=
  match a with
  | Read _ evs => forall tag attrs, In (Start tag attrs) evs -> keyed attrs
  | Build _ _ _ kwargs => keyed kwargs
  end.
(** A document after any history. *)
Definition history (l : list action) : dom := fold_left act l new_document.
(** An object and its ancestors. *)
Inductive up (d : dom) : nat -> nat -> Prop :=
| up_self i : up d i i
| up_more i n p j : get d i = Some n -> n_parent n = Some p -> up d p j -> up d i j.
(** The value of a key at an object: its own or that of the nearest ancestor. *)
Inductive nearest (d : dom) (k : text) : nat -> value -> Prop :=
| near_own i n a v : get d i = Some n -> n_attrs n = Some a -> dget k a = Some v -> nearest d k i v
| near_up i n a p v : get d i = Some n -> n_attrs n = Some a -> dget k a = None -> n_parent n = Some p -> nearest d k p v -> nearest d k i v.

(** Two objects of the same shape: as many children, of the same shapes. *)
Inductive alike (d : dom) : nat -> nat -> Prop :=
| alike_same i : alike d i i
| alike_kids i j m n : get d i = Some m -> get d j = Some n -> n_cls m <> CMask -> n_cls n <> CMask -> Forall2 (alike d) (n_kids m) (n_kids n) -> alike d i j.

(** Events that open and close like parentheses, for the elements of a stored tree in document order. *)
Inductive nested : list (text * bool * nat) -> Prop :=
| nested_nil : nested []
| nested_elem tag i r s : nested r -> nested s -> nested ((tag, true, i) :: r ++ (tag, false, i) :: s).

(** A tree with the names of SVG and without text, as written. *)
Fixpoint unqualified (t : xtree) : xtree := match t with X tag a _ kids => X (svg_name tag) a [] (map unqualified kids) end.
(** The elements that keep their name. *)
Definition kept : list text := map T ["svg"; "g"; "use"; "script"; "text"; "tspan"; "path"; "line"; "rect"; "circle"; "ellipse"; "polyline"; "polygon"; "image"; "title"; "desc"; "pattern"]%string.

(** Stored trees without anything but triples, and their elements in document order. *)
Inductive whole : shadow -> Prop := whole_intro tag e l : Forall (fun o => exists s, o = Some s /\ whole s) l -> whole (Shadow tag e l).
Fixpoint preorder (s : shadow) : list (text * nat) :=
  match s with Shadow tag e l => (tag, e) :: flat_map (fun o => match o with Some s => preorder s | None => [] end) l end.
Fixpoint postorder (s : shadow) : list (text * nat) :=
  match s with Shadow tag e l => flat_map (fun o => match o with Some s => postorder s | None => [] end) l ++ [(tag, e)] end.
Definition picked (b : bool) (evs : list (text * bool * nat)) : list (text * nat) :=
  map (fun x => (fst (fst x), snd x)) (filter (fun x => Bool.eqb (snd (fst x)) b) evs).

(** The geometry of elements, in the order of arguments. *)
Definition geometry : list (string * list string) := [
  ("rect", ["x"; "y"; "width"; "height"; "rx"; "ry"]); ("ellipse", ["cx"; "cy"; "rx"; "ry"]); ("line", ["x1"; "y1"; "x2"; "y2"]);
  ("polyline", ["points"]); ("polygon", ["points"]); ("path", ["d"])]%string.

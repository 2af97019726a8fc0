(** Document tree of svgio/nodes.py: Node 42-315, Element 318-383, ElementBuilder 386-396, Document 399-460, BOOTSTRAP 2308-2336.
    Objects live in a list and refer to each other by position; the Document is object 0. *)
Require Import ZArith QArith List Ascii String Bool.
Require Import Verif.Base.
Import ListNotations.

(** The classes of BOOTSTRAP, nodes.py:2308-2336, with Node and Document. *)
Inductive cls :=
| CDocument | CNode | CSVG | CGroup | CDefs | CSymbol | CMarker | CUse | CStyle | CScript | CHyperlink | CText | CTSpan | CPath | CLine | CRect
| CCircle | CEllipse | CPolyline | CPolygon | CImage | CTitle | CDesc | CMetadata | CClipPath | CMask | CLinearGradient | CRadialGradient | CPattern.
(** An attribute value: text from a file, a number or None from a call. *)
Inductive value := VText (t : text) | VNum (q : Q) | VNone.
(** A dict: in order of insertion. *)
Definition dict (A : Type) : Type := list (text * A).
Fixpoint dget {A} (k : text) (d : dict A) : option A :=
  match d with [] => None | (k', v) :: r => if teqb k k' then Some v else dget k r end.
Fixpoint dset {A} (k : text) (v : A) (d : dict A) : dict A :=
  match d with [] => [(k, v)] | (k', v') :: r => if teqb k k' then (k', v) :: r else (k', v') :: dset k v r end.
(** dict.update *)
Definition dupdate {A} (d e : dict A) : dict A := fold_left (fun d p => dset (fst p) (snd p) d) e d.

(** nodes.py:43-48. [n_attrs] is None where __init__ was not called: Image.__init__ (1642-1645) does not call it, Mask (1394) has none. *)
Record node := mkNode { n_cls : cls; n_attrs : option (dict value); n_parent : option nat; n_doc : option nat; n_kids : list nat }.
(** All objects, and Document.objects, nodes.py:404. *)
Record dom := mkDom { heap : list node; objects : dict nat }.
(** Document(), nodes.py:400-412. *)
Definition new_document : dom := mkDom [mkNode CDocument (Some []) None (Some 0%nat) []] [].
Definition get (d : dom) (i : nat) : option node := nth_error (heap d) i.
Definition put (d : dom) (i : nat) (n : node) : dom :=
  mkDom (firstn i (heap d) ++ n :: skipn (S i) (heap d)) (objects d).

(** BOOTSTRAP, nodes.py:2308-2336. *)
Definition bootstrap : dict cls := [
  (T "svg", CSVG); (T "g", CGroup); (T "defs", CDefs); (T "symbol", CSymbol); (T "marker", CMarker); (T "use", CUse);
  (T "style", CStyle); (T "script", CScript); (T "a", CHyperlink); (T "text", CText); (T "tspan", CTSpan);
  (T "path", CPath); (T "line", CLine); (T "rect", CRect); (T "circle", CCircle); (T "ellipse", CEllipse);
  (T "polyline", CPolyline); (T "polygon", CPolygon); (T "image", CImage); (T "title", CTitle); (T "desc", CDesc);
  (T "metadata", CMetadata); (T "clip-path", CClipPath); (T "mask", CMask); (T "lineargradient", CLinearGradient);
  (T "radialgradient", CRadialGradient); (T "pattern", CPattern)]%string.

(** Constructors. Defs, Symbol, Marker, Metadata, Style and the gradients want document, parent and attributes, and
    keep none of them (nodes.py:1805-1806, 1863-1864, 1871-1872, 1879-1880, 1920-1921, 1954-1955, 1962-1963). *)
Definition wants_three (c : cls) : bool :=
  match c with CDefs | CSymbol | CMarker | CMetadata | CStyle | CLinearGradient | CRadialGradient => true | _ => false end.
(** The keys for positional arguments: Rect 687-697, Ellipse 993-1001, Circle 1082-1089, Line 1171-1179, Polyline and
    Polygon 1301-1306, 1320-1325, Path 1332-1337. *)
Definition positional (c : cls) : list text :=
  match c with
  | CRect => [T "x"; T "y"; T "width"; T "height"; T "rx"; T "ry"]
  | CEllipse => [T "cx"; T "cy"; T "rx"; T "ry"]
  | CCircle => [T "x"; T "y"; T "r"]
  | CLine => [T "x1"; T "y1"; T "x2"; T "y2"]
  | CPolyline | CPolygon => [T "points"]
  | CPath => [T "d"]
  | _ => []
  end%string.
(** The attributes of cls( *args, **kwargs), or the exception. *)
Definition construct (c : cls) (args : list value) (kwargs : dict value) : Res (option (dict value)) :=
  if wants_three c then
    let left := skipn (List.length args) [T "document"; T "parent"; T "attributes"]%string in
    if Nat.leb (List.length args) 3 && Nat.eqb (List.length kwargs) (List.length left)
       && forallb (fun k => match dget k kwargs with Some _ => true | None => false end) left
    then Ok (Some []) else Err TypeError
  else match c with
  | CImage | CMask => match args, kwargs with [], [] => Ok None | _, _ => Err TypeError end
  | _ => Ok (Some (dupdate kwargs (combine (positional c) args)))
  end.
(** Is it a Node, a list? All but Mask, nodes.py:1394. *)
Definition is_node (c : cls) : bool := match c with CMask => false | _ => true end.

(** parent.append(node) for a new object, nodes.py:116, 396. Where append fails the object is lost and not added here. *)
Definition append_new (d : dom) (p : nat) (n : node) : Res dom :=
  match get d p with
  | Some m =>
      if is_node (n_cls m) then
        let d := put d p (mkNode (n_cls m) (n_attrs m) (n_parent m) (n_doc m) (n_kids m ++ [List.length (heap d)])) in
        Ok (mkDom (heap d ++ [n]) (objects d))
      else Err AttributeError
  | None => Err Unmodelled
  end.

(** What iterparse yields, nodes.py:90; the name and attributes of an element are known at its start. *)
Inductive ev := Start (tag : text) (attrs : dict text) | End | StartNs (prefix uri : text).
Fixpoint starts_with (p s : text) : bool :=
  match p, s with [], _ => true | _, [] => false | a :: p, b :: s => aeqb a b && starts_with p s end.
(** nodes.py:92-99 *)
Definition strip_ns (tag : text) : text :=
  if starts_with (T "{http://www.w3.org/2000/svg"%string) tag then skipn 28 tag else tag.
(** One turn of the loop of Node.parse, nodes.py:90-124. The state is the tree and the variable node. *)
Definition parse_step (doc : option nat) (d : dom) (cur : option nat) (e : ev) : dom * Res (option nat) :=
  match e with
  | Start tag attrs =>
      let made := match dget (strip_ns tag) bootstrap with
                  | Some c => rmap (fun _ => c) (construct c [] [])
                  | None => Ok CNode
                  end in
      match made, cur with
      | Err x, _ => (d, Err x)
      | Ok c, None => (d, Err AttributeError)
      | Ok c, Some p =>
          let a := map (fun x => (fst x, VText (snd x))) attrs in
          let i := List.length (heap d) in
          match append_new d p (mkNode c (Some a) (Some p) doc []) with
          | Err x => (d, Err x)
          | Ok d =>
              match dget (T "id"%string) attrs with
              | None => (d, Ok (Some i))
              | Some id =>
                  match doc with
                  | None => (d, Err AttributeError)
                  | Some _ => (mkDom (heap d) (dset id i (objects d)), Ok (Some i))
                  end
              end
          end
      end
  | End =>
      match cur with
      | None => (d, Err AttributeError)
      | Some i => match get d i with Some n => (d, Ok (n_parent n)) | None => (d, Err Unmodelled) end
      end
  | StartNs _ _ => (d, Ok cur)
  end.
Fixpoint parse_loop (doc : option nat) (evs : list ev) (d : dom) (cur : option nat) : dom * Res (option nat) :=
  match evs with
  | [] => (d, Ok cur)
  | e :: r => match parse_step doc d cur e with
              | (d, Ok cur) => parse_loop doc r d cur
              | (d, Err x) => (d, Err x)
              end
  end.
(** node.parse(source), nodes.py:85-124; Document(source) and Document.read, 410-411, 452-453. The tree is changed also
    where it raises. A Mask has no parse. *)
Definition parse (d : dom) (i : nat) (evs : list ev) : dom * Res unit :=
  match get d i with
  | Some n =>
      if is_node (n_cls n) then let '(d, r) := parse_loop (n_doc n) evs d (Some i) in (d, rmap (fun _ => tt) r)
      else (d, Err AttributeError)
  | None => (d, Err Unmodelled)
  end.

(** node.name( *args, **kwargs), nodes.py:61-66, 386-396, for the names of elements. *)
Definition dash (s : text) : text := map (fun c => if aeqb c "_" then "-"%char else c) s.
Definition build (d : dom) (i : nat) (name : text) (args : list value) (kwargs : dict value) : dom * Res unit :=
  match get d i, dget (dash name) bootstrap with
  | Some n, Some c =>
      if is_node (n_cls n) then
        match construct c args kwargs with
        | Err x => (d, Err x)
        | Ok a => match append_new d i (mkNode c a (Some i) (n_doc n) []) with
                  | Ok d => (d, Ok tt)
                  | Err x => (d, Err x)
                  end
        end
      else (d, Err AttributeError)
  | _, _ => (d, Err AttributeError)
  end.

(** Document.get_ancestors, nodes.py:428-433; None where it does not end. *)
Fixpoint ancestors (fuel : nat) (d : dom) (i : nat) : option (list nat) :=
  match fuel with
  | O => None
  | S fuel =>
      match get d i with
      | None => None
      | Some n => match n_parent n with
                  | None => Some [i]
                  | Some p => option_map (cons i) (ancestors fuel d p)
                  end
      end
  end.
(** Document.get_values, nodes.py:435-440. *)
Fixpoint collect (d : dom) (l : list nat) (values : dict value) : Res (dict value) :=
  match l with
  | [] => Ok values
  | i :: r => match get d i with
              | Some n => match n_attrs n with Some a => collect d r (dupdate values a) | None => Err AttributeError end
              | None => Err Unmodelled
              end
  end.
Definition get_values (d : dom) (i : nat) : Res (dict value) :=
  match ancestors (List.length (heap d)) d i with
  | Some l => collect d (rev l) []
  | None => Err Unmodelled
  end.
(** values.get(key): the properties of elements, for example nodes.py:472-475, 701-719. *)
Definition prop (d : dom) (i : nat) (key : text) : Res (option value) := rmap (dget key) (get_values d i).

(** Document.get_element_by_id, nodes.py:445-446. *)
Definition get_element_by_id (d : dom) (id : text) : option nat := dget id (objects d).
(** The first match of url\(#?(.* )\), constants.py:154: the group. [last_paren] is what is before the last parenthesis of
    the line. *)
Fixpoint last_paren (s : text) : option text :=
  match s with
  | [] => None
  | c :: r => if aeqb c "010" then None
              else match last_paren r with
                   | Some t => Some (c :: t)
                   | None => if aeqb c ")" then Some [] else None
                   end
  end.
Definition iri_here (s : text) : option text :=
  if starts_with (T "url("%string) s then
    let r := skipn 4 s in
    match r with
    | c :: r' => if aeqb c "#" then last_paren r' else last_paren r
    | [] => None
    end
  else None.
Fixpoint iri (s : text) : option text :=
  match iri_here s with
  | Some t => Some t
  | None => match s with [] => None | _ :: r => iri r end
  end.
(** Document.get_element_by_url, nodes.py:448-450. *)
Definition get_element_by_url (d : dom) (url : text) : option nat :=
  match iri url with Some id => get_element_by_id d id | None => None end.

(** tag(), nodes.py:68-69, 1366-1367, 1387-1388, 1858-1859: the lower case name of the class, and three that differ. *)
Definition tag_of (c : cls) : text :=
  match c with
  | CDocument => T "document" | CNode => T "node" | CSVG => T "svg" | CGroup => T "g" | CDefs => T "defs" | CSymbol => T "symbol"
  | CMarker => T "marker" | CUse => T "use" | CStyle => T "style" | CScript => T "script" | CHyperlink => T "hyperlink"
  | CText => T "text" | CTSpan => T "tspan" | CPath => T "path" | CLine => T "line" | CRect => T "rect"
  | CCircle => T "circle" | CEllipse => T "ellipse" | CPolyline => T "polyline" | CPolygon => T "polygon" | CImage => T "image"
  | CTitle => T "title" | CDesc => T "desc" | CMetadata => T "metadata" | CClipPath => T "clip-path" | CMask => T "mask"
  | CLinearGradient => T "lineargradient" | CRadialGradient => T "radialgradient" | CPattern => T "pattern"
  end%string.
(** An XML element: what xml() builds and iterparse reads. *)
Inductive xtree := X (tag : text) (attrs : dict text) (body : text) (kids : list xtree).
(** The loop over children of xml(). *)
Fixpoint each {A B} (f : A -> Res B) (l : list A) : Res (list B) :=
  match l with [] => Ok [] | a :: r => do b <- f a; do bs <- each f r; Ok (b :: bs) end.
(** Node.xml, nodes.py:71-83: the element it builds; tostring is not modelled. [str] is the str of numbers and None. The
    module xml.etree.cElementTree it imports exists up to Python 3.8. *)
Section Xml.
  Variable str : value -> text.
  Fixpoint xml (fuel : nat) (d : dom) (i : nat) : Res xtree :=
    match fuel with
    | O => Err RecursionError
    | S fuel =>
        match get d i with
        | None => Err Unmodelled
        | Some n =>
            if is_node (n_cls n) then
              match n_attrs n with
              | None => Err AttributeError
              | Some a =>
                  do ks <- each (xml fuel d) (n_kids n);
                  Ok (X (tag_of (n_cls n)) (map (fun x => (fst x, match snd x with VText t => t | v => str v end)) a) [] ks)
              end
            else Err AttributeError
        end
    end.
End Xml.

(** list == list on nodes: the number and equality of children, recursively; Mask is equal to itself only. *)
Fixpoint all2 {A B} (f : A -> B -> bool) (l : list A) (m : list B) : bool :=
  match l, m with [], [] => true | a :: l, b :: m => f a b && all2 f l m | _, _ => false end.
Fixpoint same (fuel : nat) (d : dom) (i j : nat) : bool :=
  if Nat.eqb i j then true
  else match fuel with
  | O => false
  | S fuel =>
      match get d i, get d j with
      | Some m, Some n => is_node (n_cls m) && is_node (n_cls n) && all2 (same fuel d) (n_kids m) (n_kids n)
      | _, _ => false
      end
  end.
(** list.index *)
Fixpoint index_of (f : nat -> bool) (l : list nat) : option nat :=
  match l with [] => None | i :: r => if f i then Some 0%nat else option_map S (index_of f r) end.
(** next_sibling, previous_sibling, nodes.py:160-172, 204-218; list.index raises ValueError where nothing is equal. A Mask has neither. *)
Definition sibling_index (d : dom) (i : nat) : Res (option (list nat * nat)) :=
  match get d i with
  | None => Err Unmodelled
  | Some n =>
      if negb (is_node (n_cls n)) then Err AttributeError
      else match n_parent n with
      | None => Ok None
      | Some p =>
          match get d p with
          | None => Err Unmodelled
          | Some m => match index_of (fun j => same (List.length (heap d)) d j i) (n_kids m) with
                      | Some k => Ok (Some (n_kids m, k))
                      | None => Err ValueError
                      end
          end
      end
  end.
Definition next_sibling (d : dom) (i : nat) : Res (option nat) :=
  do x <- sibling_index d i;
  Ok (match x with None => None | Some (l, k) => nth_error l (S k) end).
Definition previous_sibling (d : dom) (i : nat) : Res (option nat) :=
  do x <- sibling_index d i;
  Ok (match x with None => None | Some (l, O) => None | Some (l, S k) => nth_error l k end).
(** next_element_sibling, previous_element_sibling, nodes.py:373-379. *)
Definition next_element_sibling (d : dom) (i : nat) : Res (option nat) := next_sibling d i.
Definition previous_element_sibling (d : dom) (i : nat) : Res (option nat) := next_sibling d i.

(** _shadow_iter, nodes.py:1974-1986. A child is a triple or something else, on which unpacking raises ValueError. *)
Inductive shadow := Shadow (tag : text) (elem : nat) (children : list (option shadow)).
Fixpoint shadow_iter (s : shadow) : list (text * bool * nat) :=
  match s with
  | Shadow tag elem children =>
      (tag, true, elem) ::
      (fix go (l : list (option shadow)) : list (text * bool * nat) :=
         match l with [] => [] | None :: _ => [] | Some c :: r => shadow_iter c ++ go r end) children
      ++ [(tag, false, elem)]
  end.

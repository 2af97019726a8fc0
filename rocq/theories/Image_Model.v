(** Images, class Image of svgio/nodes.py:1634-1780: data, load and bbox. *)
Require Import Reals List Ascii String Bool.
Require Import Verif.Base Verif.Point_Model Verif.Matrix_Model Verif.Shape_Model.
Import ListNotations.
Open Scope R_scope.

(** What the methods read: self.href, self.url, self.transform, self.image_width, self.image_height. Where reading raises, the value is an
    exception. *)
Record image := mkImage { i_href : Res (option text); i_url : Res text; i_transform : Res sval; i_width : option R; i_height : option R }.
(** Image() by a call or a builder, nodes.py:1642-1645: Node.__init__ is not called, so that there are no attributes for href and transform
    to read; no class has an attribute url. *)
Definition image_repo : image := mkImage (Err AttributeError) (Err AttributeError) (Err AttributeError) None None.
(** An image read from a file, where Node.parse sets the attributes, nodes.py:111: href and transform are found (nodes.py:1683-1689, 499-502), url is not. *)
Definition image_attributes (href : option text) (transform : sval) : image := mkImage (Ok href) (Err AttributeError) (Ok transform) None None.

(** str.startswith *)
Fixpoint startswith (p t : text) : bool :=
  match p, t with
  | [], _ => true
  | a :: p, b :: t => Ascii.eqb a b && startswith p t
  | _ :: _, [] => false
  end.
Section Data.
  (** base64.b64decode, which is not modelled. *)
  Variable b64decode : text -> Res text.
  (** data, nodes.py:1647-1661. None.startswith is an AttributeError. *)
  Definition image_data (s : image) : Res (option text) :=
    do url <- i_href s;
    match url with
    | None => Err AttributeError
    | Some url =>
        let decode (n : nat) := do u <- i_url s; do v <- b64decode (skipn n u); Ok (Some v) in
        if startswith (T "data:image/"%string) url then
          if startswith (T "data:image/png;base64,"%string) url then decode 22%nat
          else if startswith (T "data:image/jpg;base64,"%string) url then decode 22%nat
          else if startswith (T "data:image/jpeg;base64,"%string) url then decode 23%nat
          else if startswith (T "data:image/svg+xml;base64,"%string) url then decode 26%nat
          else Ok None
        else Ok None
    end.

  (** PIL, which is not modelled: Image.open of bytes, and of the name of a file. What opening gives. *)
  Inductive opening := Opened | IOError | Raises (e : exn).
  Variable open_bytes : text -> opening.
  Variable open_file : text -> opening.
  (** os.path.join *)
  Variable join : text -> text -> text.
  (** load_data, nodes.py:1718-1731, and load_file, 1733-1752, where PIL is installed: what is opened, if anything. An IOError that leaves
      load_data is not one of the exceptions that are modelled. *)
  Definition load_data (s : image) : Res bool :=
    do d <- image_data s;
    match d with
    | None => Ok false
    | Some b => match open_bytes b with Opened => Ok true | IOError => Err Unmodelled | Raises e => Err e end
    end.
  Definition load_file (s : image) (directory : option text) : Res bool :=
    do h <- i_href s;
    match h with
    | None => Ok false
    | Some h =>
        match open_file h with
        | Opened => Ok true
        | Raises e => Err e
        | IOError =>
            match directory with
            | None => Ok false
            | Some d => match open_file (join d h) with Opened => Ok true | IOError => Ok false | Raises e => Err e end
            end
        end
    end.
  (** load, nodes.py:1705-1716. [set_values] is self.set_values_by_image(), which no class has. Without PIL nothing happens. *)
  Definition image_load (set_values : bool -> Res unit) (pil : bool) (s : image) (directory : option text) : Res unit :=
    if pil then
      do d <- image_data s;
      do o <- (match d with
               | Some _ => load_data s
               | None => do h <- i_href s; match h with Some _ => load_file s directory | None => Ok false end
               end);
      set_values o
    else Ok tt.
  Definition image_load_repo := image_load (fun _ => Err AttributeError).
End Data.

Section Box.
  (** Matrix(text), modelled in Transform_Model. *)
  Variable matrix : text -> Res mx.
  (** min and max of four values, as the list of the four corners has. *)
  Definition min4 (a b c d : R) : R := Rmin (Rmin (Rmin a b) c) d.
  Definition max4 (a b c d : R) : R := Rmax (Rmax (Rmax a b) c) d.
  (** bbox, nodes.py:1754-1778, for sizes that are numbers. *)
  Definition image_bbox (s : image) (transformed : bool) : Res (R * R * R * R) :=
    match i_width s, i_height s with
    | Some w, Some h =>
        let corner (p : pt) := if transformed then (do t <- i_transform s; point_times matrix p t) else Ok p in
        do p0 <- corner (P 0 0);
        do p1 <- corner (P w 0);
        do p2 <- corner (P w h);
        do p3 <- corner (P 0 h);
        Ok (min4 (px p0) (px p1) (px p2) (px p3), min4 (py p0) (py p1) (py p2) (py p3),
            max4 (px p0) (px p1) (px p2) (px p3), max4 (py p0) (py p1) (py p2) (py p3))
    | _, _ =>
        do t <- i_transform s;
        do p <- point_times matrix (P 0 0) t;
        Ok (px p, py p, px p, py p)
    end.
End Box.

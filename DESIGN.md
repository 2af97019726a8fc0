# Formal model of svgio

The model is in `rocq/theories`, for Coq 8.16.1. Properties are in `properties.jsonl`,
their status in `MANIFEST.json`, seeded-bug experiments in `seeded/LOG.jsonl`.

## Layout

Per area there are up to four files:

* `X_Model.v`  - Gallina functions transcribed from /repo, each citing file and lines; no proofs.
* `X_Spec.v`   - the independent specification (written from the SVG/CSS text or from plain
  mathematics, not from the code, and not using the model's helpers).
* `X_Proofs.v` - supporting lemmas.
* `X_Thms.v`   - the property theorems only, each followed by a concrete `Example` that meets
  its hypotheses and by `Print Assumptions`.

Areas and what they model (the header of each `X_Model.v` gives the lines):

| area | code |
|------|------|
| Base | Python built-ins: results, text, `int`, `float`, `round`, `str.lower`; not specific to /repo |
| Fmt, FmtG | `"%.12f"`, `"%.12G"` on exact rationals; `Point.__str__`, `Point(text)` |
| Color, ColorInit | basic.py 500-1434; ColorInit is the constructor with its keywords |
| Length | basic.py 30-497 |
| Angle, Point, Hull, Matrix, Transform | basic.py 1437-2517; Transform is the transform text parser |
| MatLen | Matrix with unresolved Lengths in its translation: `Length.__iadd__`, `render`, transform text with units |
| PointDyn | Point operators by the sort of the other operand; `[]` of points and matrices |
| Viewbox, ViewboxText | basic.py 2520-2688 |
| Path | the segment record and the drawing methods of Path (move, line, quad, cubic, arc, closed, ...) |
| PathText | PathLexicalParser, path.py 22-326; PathDraw and PathShort add theorems to the same model |
| PathD | printing of path data; PathRound adds theorems for coordinates with more digits than are printed |
| PathEdit | list editing of Path, Subpath views, reverse, direct_close; PathSub, PathClose add theorems |
| PathSeq, PathBox | segment and path equality, sequence methods, Subpath.d, boxes of subpaths |
| Repr | `__repr__` of basic and path objects, segment constructors; the specification reads a fragment of Python's expressions |
| PathCache | `_length`, `_lengths`, point(t) |
| Curve, CurveLen | lines, quadratic and cubic curves: points, boxes, lengths, transforms |
| Arc (ArcBox, ArcLen, ArcSolve, ArcCurves, ArcClose) | path.py 1132-1945 |
| Shape | segments() of Rect, Circle, Ellipse, Line, Polyline, Polygon |
| Dom, Paint | nodes.py: Node, Element, Document, BOOTSTRAP, builders, parsing, writing, shadow, fill and stroke |
| Regex, RegexUse | the patterns of constants.py 117-189 with the semantics of `re`; the code that applies them |
| Font | Text.parse_font and parse_font_weight, nodes.py 1578-1623 (nothing in svgio calls parse_font) |
| SubOp | operators of Subpath and PathSegment, path.py 376-385, 2805-2863 |
| Alias | the segment and point objects of several paths, path.py 104-326, 340-400, 1966-2113, 2441-2863 |
| PathElem | segments() and bbox() of path elements in a document, bbox() of lines, Shape.d, nodes.py 641-668, 1339-1347 |
| Float | points of lines and Bezier curves, boxes of lines and quadratics, matrices, point equality, relative steps and opacity in IEEE 754 binary64, path.py 95-102, 457-468, 477-483, 660-669, 809-861, 1006-1033, basic.py 533-538, 612-621, 1127-1137, 1484-1493, 1825-1829, 2237-2259, 2414-2418, 2492-2517 |
| RealPath, RealDraw | paths with arcs on the reals: approximate_arcs_with_cubics and _with_quads, validate_connections, path.py 2311-2339, 2765-2785; path data as drawn by SVG |
| FloatAngle | Angle in binary64, with the float tau, the exact remainder of fmod and Python's % on top of it, basic.py 1832-1908 |
| FloatColor (with FloatHue_Proofs) | Color.hue, saturation, lightness, hsl_to_int, rgb_to_int, over, the percentages of rgb() and the numbers of hsl() in binary64, basic.py 612-657, 1013-1053, 1206-1273, 1337-1362, 1400-1420 |
| FloatView | viewbox_transform of basic.py 2587-2688, with the text |
| FloatText | float(), Length.str, Point, Length and Viewbox as text of basic.py 47-64, 295-296, 479-497, 1449-1454, 1524-1535, 2541-2570, on binary64 numbers |
| FloatPath | path data read and written (the Path and PathText areas, svgio/path.py 22-326, 355-366, 2243-2609, 2700-2752, the d() of the segments) on binary64 numbers |
| FloatLength | value, sums, comparisons and conversions of Length, svgio/basic.py:66-73, 99-161, 230-278, 344-477, on binary64 numbers; what value is given are numbers |
| FloatTransform | Matrix.parse, Matrix.scale, translate, rotate, skew, the pre_ operations and Angle.parse, svgio/basic.py:1849-1866, 1926-1955, 2066-2165, 2344-2407, 2437-2517, on binary64 numbers; cos, sin and tan are parameters with a stated error; lengths that need a ppi or viewport as parameters are outside |
| PathCall | the drawing methods of Path with several points at once, svgio/path.py:2441-2584: move, line, vertical, horizontal, smooth_quad, quad, smooth_cubic, cubic, arc; the arguments of arc come in sixes; the single segments are in Path |
| MatOp | the operators * *= @ @= with a Matrix, svgio/basic.py:1988-2008, svgio/path.py:367-374, 559-567, 639-647, 785-795, 971-983, 2026-2044, svgio/nodes.py:504-519, with Python's rule for which method runs; an element is a list, so list.__mul__ is found first; arcs, Subpath and whole numbers as operands are outside (C96, C78) |
| FloatDist | Point.distance, svgio/basic.py:1807-1813, the lengths of Move, Line and Close, Path.length and Path.point of polylines, svgio/path.py:493-501, 671-675, 2151-2152, 2240-2242, in binary64; math.sqrt is taken as correctly rounded, sum as in Python up to 3.11; distance_to (hypot) and curves are outside |
| FloatHull | Point.orientation and Point.convex_hull, svgio/basic.py:1776-1805, in binary64; set() is taken as done, its order as any |
| FloatClosest | Linear.closest_segment_point, svgio/path.py:677-695, in binary64 |
| Round | the methods of _RoundShape, svgio/nodes.py:819-982, over what self.rx, self.ry, self.rotation, self.center and self.transform give, numbers or an exception |
| Image | data, load and bbox of Image, svgio/nodes.py:1634-1780, over what self.href, self.url, self.transform and the sizes give; b64decode, PIL and os.path.join are parameters |
| ElemRepr | repr() of elements, svgio/nodes.py:53-59, 314-315, 1539-1546, over the nodes of Dom; str of numbers and None is a parameter |
| DocWrite | str() and write() of a document, svgio/nodes.py:50-51, 413-426, 455-457, over Dom; ElementTree.tostring and the printed settings are parameters |
| ArcEllipse | is_circular, radius and get_ellipse of Arc, svgio/path.py:1764-1775, 1886-1887, with the arguments of Ellipse, svgio/nodes.py:993-1001 |
| ColorDist | distance and distance_to of Color, svgio/basic.py:1364-1366, 1422-1423, over distance_sq of the area Color |
| ArcInt | _integral_length of Arc, svgio/path.py:1521-1533; the number of steps, 100000 in the code, is a parameter |
| FloatWalk | which segment, and where on it, Path.point looks, with the fractions of _calc_lengths, in binary64, path.py 2138-2156, 2201-2236; the lengths of the segments are given |
| DomApi | nodes.py 126-383: child, sibling and comparison properties; the properties that read attributes |

## Modelling decisions

* **Exceptions** are values: `Res A = Ok a | Err exn`.
* **Floats** are modelled as exact numbers. Code that only adds, multiplies, divides, compares and
  rounds works on rationals (`Q`, or `Qc` where Leibniz equality is wanted) so that the model
  computes; code that uses sqrt or trigonometry works on `R`. These theorems speak about the algorithm in
  exact arithmetic. The Float area models part of the same code in IEEE 754 binary64 with Flocq, and bounds
  how far the two are apart.
* **Text** is `list ascii`: code points above 255 are not modelled.
* **Regular expressions**: the models use hand-written scanners, each citing its pattern. Regex_Model holds the
  pattern strings of constants.py, a reader of the syntax they use, and the backtracking semantics of Python's `re`
  (the list of successes in order of preference); RegexUse_Thms proves the scanners equal to that for every text.
  What is trusted there is the semantics itself (ASCII only), not the scanners.
* **Mutable objects** become state passing; object identity is modelled by explicit ids where the
  code depends on it (DOM nodes).
* **External routines** whose result the code takes as given (XML tokeniser, cube root on floats,
  SciPy elliptic integrals) are function parameters of the definitions or hypotheses of the theorem.
* A property that is false of the code gets a theorem `..._refuted` with a witness, plus a
  theorem (`..._partial`) for the part that does hold.

## Plan per property

| id | model | how proved |
|----|-------|------------|
| C01 | Color: hex printing, hex regex, parse_color_hex | digit-level round trip lemma, all values in 0..2^32-1 |
| C02 | Color: the four setters on Z | bitwise extensionality (`Z.bits_inj'`) |
| C03 | Color: parse on 3/4/6/8 digits | digit arithmetic |
| C04 | Color: rgb/argb/rgba accessors | bitwise |
| C05 | Color: `__eq__` | value mod 2^32 vs the four channels |
| C06 | Color: keyword chain as a table | compare with a separately written SVG 1.1 table; refuted for aliceblue |
| C07 | Color: regex matchers for rgb()/rgba() | printer in the spec, parser in the model |
| C08 | Color: over on Q | field/inequality reasoning on exact rationals |
| C09 | Color: distance_sq on Z | algebra; identity of indiscernibles refuted (operator precedence) |
| C10 | Color: hue/saturation/lightness/hsl_to_int on Q | case split on the largest channel; setter round trip refuted (degrees vs turns) |
| C11 | Color: parse_color_hsl | range lemmas |
| C12 | Color: distinct with the cube root as parameter | bijection between indices and triples; conditional refutation for an inexact cube root |
| C13 | Length text | decimal printing/parsing |
| C14,C15 | Length.value | table lookup vs CSS spec; vmin/vmax refuted |
| C16,C17 | Length comparison | refuted with witnesses, partial for the metric family |
| C18,C19 | Length arithmetic | case analysis on units |
| C20,C21 | Angle on R | field; loop with measure |
| C22-C24 | Point on R | ring/field, trig identities |
| C25 | Point.convex_hull on Q with fuel | gift wrapping invariant; for collinear input the walk goes along the first side and then round the first point in ever larger angles, never choosing what it missed; enclosing refuted there |
| C26 | `%.12G` printing on Q | refuted for stripped exponents, partial for fixed notation |
| C27-C31 | Matrix on R, transform parser over tokens and text | ring, list induction |
| C32,C33 | Viewbox | linear arithmetic per alignment |
| C34-C41 | PathText on Qc | lexer fuel bound; interpreter invariant; printer/parser round trip |
| C42-C48,C50 | PathEdit | list induction, invariants, cache coherence as a state machine |
| C49,C51,C52 | Curve on R | ring, convexity |
| C53 | Curve on R | quadratics algebraically; cubics by calculus; refutation for the degenerate denominator branch |
| C54 | Curve on R | projection onto a segment |
| C55 | Curve: segment_length on R with depth fuel | triangle inequality |
| C56-C58 | Arc on R | trigonometry |
| C59 | Shapes | Rect/Circle/Polyshape.segments call missing attributes; refuted, Line proved |
| C60-C64, C66-C68 | Dom: objects in a list, referred to by position; event list | invariant over event sequences; refutations for lost text, unknown tags, siblings |
| C65 | Paint over Dom | fuel; the stroke recursion proved to diverge for every fuel |
| C69,C70,C71,C72,C73 | Length, Angle, Point, Matrix, Viewbox | algebra; text round trip |
| C74,C76 | PathD, Arc | printer/parser round trip of one segment; SVG end point form against centre form |
| C40,C74 (rounding) | PathRound over PathD | the pen of the reader follows the pen of the printer within a relation that grows with each segment |
| C75 | PathEdit (direct_close) | list induction |
| C77,C78 | Arc | constructor solving from control, sagitta, bulge, r; image of an ellipse under a matrix |
| C79 | PathText | every incomplete instruction raises; refuted for V and A without numbers |
| C80 | ArcClose over Arc, ArcCurves on R | distance between an arc and the Bezier pieces made of it |
| C81-C84 | PathSeq over Path, PathD, PathText | tolerance equality against coordinates; list induction; printing of one subpath read back |
| C85 | PathBox over Curve, Arc | union of boxes; refuted when a subpath is only a move |
| C86 | ColorInit over Color | the keywords applied one after another; bytes of each step |
| C87 | MatLen over Transform, Length on Q | the matrix denotes what the list with every length resolved denotes; invariant over the unit family |
| C88-C89 | PointDyn: operands as a sum type | each accepted form is the point it stands for; refutations for partial updates, hashing |
| C90-C91 | DomApi over Dom | position argument for the walk (it ends iff no two children are alike); table of properties against nearest |
| C92-C93 | Repr over Fmt, PathSeq | lexer and reader as folds over characters and tokens, so that printed pieces compose; constructors bind arguments as Python does |
| C94 | Regex: pattern strings, matcher as list of successes | one rule per construct (what the first success is and what all others leave), so that backtracking never helps; number pattern against literals |
| C95 | Font over Regex | the first way to match, rule by rule; for the greedy dot all longer tries fail |
| C96 | SubOp over PathEdit | each operator unfolds to constructor, insert, extend; positions of the range by induction |
| C97 | ArcAngle over Arc | direction of ellipse_t by quadrants; a ray meets an ellipse about its origin once |
| C98 | Alias over PathEdit | ownership invariant with a frame; each operation on objects simulates the one on values; induction over programs |
| C99 | PathElem over Dom, PathText, PathBox, Arc | composition: nearest attribute, parser, box of each segment; SVG's arc is unique, so that the box of the arc object bounds it |
| C100 | Float over Flocq | error of each operation relative to the largest coordinate, propagated through weights in [0,1]; numpy's line by monotone rounding; box by (s-t)(d(s+t)-2n), so that no exact extremum is needed |
| C101-C104 | Float over Flocq | the same error calculus; integers below 2^53 are exact; floats of at least 8192 are multiples of 2^-39; induction over steps; nearest integer |
| C46, C50, C105 | RealPath, RealDraw over Arc, ArcClose, PathText | validate_connections is the identity on connected paths, so that the loop is a flat_map; each piece of the curves stays close to its piece of the arc and the other way round; composed with the parser |
| C106 | FloatWalk over Float | sums by relative errors (Flocq's plus_error), so that underflow needs no case; the accumulated fraction follows the true one within 5n+2 roundings, by induction over the segments |
| C40, C84 | PathLetters over PathD | printed numbers contain no command letter, whatever the coordinate |
| C107 | FloatAngle over Float, FloatWalk | pi to twenty digits from Machin's series in Coq's library; relative errors multiplied out; every step of the loop but the last is exact (a smaller multiple of the same power of two is a float), beyond 2^62 all floats are multiples of 1024 and the step is lost; fmod computed on the integers behind the floats |
| C108 | FloatColor over Float, FloatAngle | an error calculus that carries the true value and a multiple of the unit roundoff through each operation; hue_2_rgb is within it of a periodic trapezoid, continuous where the branches meet, so that a comparison which goes the wrong way costs no more than the rounding |
| C109 | ViewboxText over Viewbox, Transform | induction over the list of numbers as the grammar makes it; composed with C32 and C33 |
| C110 | FloatView over Float, Viewbox | every intermediate is within k roundings of W, the sum of the sizes; the text by C33, its numbers being the rationals that the floats are |
| C111 | FloatText over Float, Fmt, FmtG | float() is correctly rounded division; the rounded decimal is no farther from the printed one than the number was, so it rounds to the same decimal; from 8192 on floats are farther apart than decimals |
| C112 | FloatPath over PathText, PathD, FloatText | the float parser draws with a float pen, by the proof of PathText; every printed segment is a spelling that settles (C111); the float pen stays near the exact pen, with linear errors for end points and quadratic ones for mirrored control points |
| C113 | FloatLength over FloatText | relative errors composed operation by operation; comparisons by the sign of a rounded sum, which is the sign of the sum; conversion by the number of 12 decimals nearest to the quotient |
| C114 | FloatTransform over Transform and FloatLength | induction on the list with a bound on every entry of the matrix of absolute values, errors growing by a factor for each step |
| C115 | PathCall over Path and PathDraw | one induction on the list of arguments for all methods, over a state (current point, next control point) the path determines |
| C116 | MatOp over Matrix and Transform | case analysis on the operands, composition of maps from C27 and C30 |
| C117 | FloatDist over Float and FloatWalk | relative errors of each operation; the root of a rounded square is exact; induction over the lines for the sum |
| C118 | FloatDist over FloatWalk and Float | the walk of C106 over the distances of C117, and the lines of C100; the place as an inductive relation, which is shown to be a function |
| C119 | FloatHull over Hull and Float | floats are rationals, so the exact walk of C25 is the computed one wherever the orientations agree; error of the determinant; a two-cycle for the refutation |
| C120 | FloatClosest over FloatDist and Curve | error of a sum of two products of differences, of the quotient against the ratio of the distances, and that clamping does not enlarge it; the ends by exact arithmetic |
| C121 | Round over Arc, ArcAngle and Shape | the arc object with the same axes, whose angles and parameters are known from C97; the circumference by comparing with 1 + (a-b)/(a+b) |
| C122 | Image over Shape | a value that is linear in both parameters lies between its values at the corners |
| C123 | ElemRepr over Dom | the first parenthesis, comma and equals sign tell the parts |
| C124 | DocWrite over Dom and ElemRepr | the element tree that xml() builds is known from C61; the first sign of the text |
| C125 | ArcEllipse over Arc and Dom | distances from the centre in the frame of the ellipse |
| C126 | ColorDist over Color | the redmean formula of the page the documentation names, times 512 |
| C127 | ArcInt over Arc | the integral of the speed along the arc, as in C55 |

## What is not modelled

* Binary floating point (rounding, overflow, NaN, infinities) outside the areas named Float..., except that `float("inf")`
  is a possible outcome in Paint. In particular not for arcs, boxes of cubic curves and lengths of curves.
* Characters above 255; locale; Python object identity other than that of DOM nodes and of segments
  and points of paths.
* `scipy` branches (`_exact_length`, `_integral_length`) and `npoint` with numpy arrays beyond the
  formula it evaluates.
* The XML tokeniser (`ElementTree.iterparse`): its event list is the input of the Dom model. `Node.xml` and
  `Document.write` are modelled up to ElementTree's `tostring`.
* `__repr__` of Mask, `__copy__` where it only repeats the constructor, `__ne__`.
* The dead module-level `parse` in nodes.py (1989-2305), which refers to names that do not exist.
* DOM methods that only raise NotImplementedError (`replace_child`, `insert_before`, `normalize`, ...).
* What an object looks like after a method raised half way (PathEdit, Matrix.parse).

## Findings

Where the code does something else than documented, a `_refuted` theorem has the witness. The main ones:

* Color: `aliceblue` is a wrong colour (two branches, the first is wrong); the None colour prints as "None", which
  reads as black; `rgb()` refuses decimals; `distance_sq` is 0 for some different colours; the hue getter is in
  degrees and the setter in turns; `distinct` repeats colours if the cube root of a perfect cube rounds down;
  `over` raises for text.
  `Color(h=, s=, l=)` is always grey; `Color(red=255)` has alpha 0; five positional arguments are ignored.
* Length: `==` between px, pt, pc, mm, cm, in is always True; `vmin`/`vmax` always use the height; pt is 1.3333 px, so
  order and sums of pt, pc and px disagree; a percentage of a percentage is 100 times too large; unknown units are px.
* Angle, Point, Matrix, Viewbox: `as_positive_degrees` does not reduce below 360; `(-1)**1` is 1; `skew` with one
  angle is ignored; two spaces before `slice` lose it; a viewBox of five numbers, or with other text between the numbers, is accepted.
  Transforms with lengths: a percentage after a rotation is taken of the other side of the viewport; user units added
  to cm raise ValueError; `Q` and `ex` are read as user units.
  `p += (None, 5)` raises after moving p; `p == (None, 5)` raises; a Matrix passes for a point; equal points may hash
  differently; `Matrix[6]` is None, so that unpacking a matrix never ends.
* Printing: stripping zeros after `%.12G` damages exponents (`1.5E-10` becomes `1.5E-1`).
* Copying: `Path(path)`, `copy(path)` and `path + other` lose the segments; `subpath += x` inserts in the wrong place;
  negative positions are not validated.
* Path text: `S` after a quadratic and `T` after a cubic reflect a control point; `V` and `A` without numbers
  are dropped silently, `h` raises TypeError rather than ValueError.
* Path: `_lengths` outlives edits; `segments(True)` and `@=` raise AttributeError; `line` with several points
  drops the relative flag; `reverse` of an empty path returns None; `segment.d()` inverts its relative flag;
  `str(path)` raises TypeError.
* repr: `Angle(-1e-13)` prints as `Angle(-0.000000000000)`, which is not == to it; `Color(None)` comes back black, a Length in a matrix comes back as text, `repr(path)` raises TypeError;
  `Move(p, relative=True)` has no end point.
* Equality: tolerant, so not transitive; a second subpath differs from the text that draws it; two nested loops over
  one segment disturb each other; a subpath that starts with a smooth curve prints another curve.
* Curves: the cubic box is wrong for degree-elevated parabolas; lengths of very small quadratics are 0;
  `closest_segment_point` returns 0 for a point segment; the hull drops points for collinear input.
* Arc: the box of an arc with sweep 0 is unsorted; `*=` decides the sweep's sign from a and d only; negative
  and zero radii are not treated as SVG says; a missing start sets `end`.
* Subpath operators: `subpath + x` and `subpath * m` are empty but for x, `text + subpath` adds the whole path, `segment + text` loses the segment.
* Sharing: `Path(subpath)`, `Path([other[i]])`, `append(path[i])` and `extend(other)` keep the objects they are given, so
  two paths change together; `path.extend(path)` never ends.
* Font: 12.5px is read as 5px, keyword sizes are 0, a missing generic family raises IndexError, nothing is reset.
* Shapes: Rect, Ellipse, Circle, Polyline outlines raise or return None in the common case (missing attributes).
* Elements: a path ignores its transform and inherits `d` from groups; its box includes the ends of moves; `d="z"` has
  no box but ValueError; `bbox()` of a line without transform and `d()` of every shape raise.
* DOM: text is lost; unknown tags are written as `<node>` and `a` as `<hyperlink>`; `<defs>`, `<symbol>`, `<marker>`,
  `<style>`, `<metadata>` raise; `next_sibling` uses list equality; `previous_element_sibling` returns the next;
  `get_element_by_id` returns the last; `stroke` recurses for ever;
  a loop over `first_child`/`next_sibling` never ends when two children are alike; `is_equal_node` ignores class and
  attributes; an ancestor's `xlink:href` wins over an own `href`; `title` and `desc` are hidden by builders.
* Floating point: without numpy `Line(1, 2**-60).point(1)` is 0; a point of a constant quadratic curve lies outside its box;
  lines whose ends differ by more than the largest float have infinite points; scaling by 49 and back changes
  12345.75 by more than the tolerance of ==; so do a thousand relative steps of 0.1 and one back.
* approximate_arcs_with_cubics and _with_quads drop arcs of radius nought, which SVG draws as lines: M0,0A0,1 0 0 0 5,0 then ends at 0,0 (approximate_flat_arc_refuted). A negative error drops all arcs (approximate_negative_refuted).
* Path.point just below 1 (C106): with seven lines of length 1 the fractions add up to 1 - 2^-52, so point(1 - 2^-53) runs off the end of the loop and gives the beginning of the last line.
* Angle.as_positive_degrees never returns for angles below -2^57 radians (-1e19 degrees, say), nor for minus infinity: 360.0
  is less than half the distance to the next float, so the loop adds nothing. Angle.degrees(3240) == Angle.degrees(0) is
  False, and is_orthogonal is False of Angle.degrees(810): nine whole turns, or nine right angles, are off by a rounding. Angle(-1e-21).normalized()
  is a full turn, and normalized again it is zero (C107).
* A path made of segments only, without a move, takes the end of its first element for the place a close goes to; replacing a first arc by several curves therefore moves the close (`approximate_first_arc_refuted`).
* Rounding makes most colours lose one in some channel when their hue, saturation and lightness are set again, since the channels are cut and not rounded (`float_hsl_roundtrip_refuted`: 0x010203ff gives 0x010103ff); never more than one (`float_hsl_roundtrip_partial`). Blending is not affected (`float_over`).
* rgb(50%, ...) is 127 though rgb(10%, ...) is 26: 255.0 / 100.0 is rounded before halves are (`float_percent_refuted`). hsl(1000, 100%, 50%) is black (`float_hsl_text_refuted`).
- C110: in binary64 a viewBox can stick out of the viewport that it meets by a rounding (5 in 1), and one of the
  same proportions can get a translation printed as (0, 0) (49 in 1).
* 29pt < 38.6657px holds but 38.6657px > 29pt does not; 1370.6mm converted to mm is 1370.599999999999mm (C113).
* `path.line(a, b, relative=True)` marks only the first line as relative, as do quad, cubic, smooth_quad, smooth_cubic and arc: the inner call has lost the flag (path.py:2464). Only printing differs.
* No path and no element can be multiplied by a matrix: Path has neither __mul__ nor a transform, so Matrix.__rmul__ copies it and fails with AttributeError (path.py:2043), and for elements list.__mul__ hides Transformable.__mul__ (TypeError). `matrix * segment` and `text * matrix` raise AttributeError; `segment *= 3` silently does nothing; `path @ 3` is an empty path.
* Point.distance squares the differences: from 2^512 on the distance is infinite, and below 2^-537 it is 0 for different points, although hypot (used by distance_to) would give the right number.
* `Point.convex_hull` never ends for (0, 0.3), (0.2, 0.9), (0.3, 1.2): three points that are on a line as decimals, and whose rounded orientations contradict each other, so the walk goes back and forth between the last two and its list of vertices grows for ever
* `Linear.closest_segment_point` gives the number 0 instead of a point for ends that differ by less than about 2^-538, as the square of their distance vanishes; without numpy, asked for the end of a line, it can give another point
* the methods of `_RoundShape` raise AttributeError for every Ellipse and Circle, as neither has `rotation`, and Circle has no `rx`; where a subclass has them, `point_at_angle` of a turned circle is off by the rotation, and `arc_angle` takes the longer way from 0 to three quarters of a turn although its documentation says the default is the smaller angle
* `data`, `bbox` and, where PIL is installed, `load` of an Image made by a call raise AttributeError, as `Image.__init__` does not call that of Node; of one read from a file, `data` raises for every picture it is meant to decode (it reads `self.url`, which does not exist) and for no href, `load` with PIL never succeeds (`set_values_by_image` does not exist), nothing sets the sizes, so that `bbox` is a point, and without a transform it raises TypeError
* `repr()` of every Text and TSpan, and of every Image made by a call, raises AttributeError; a value with a comma may print like two attributes
* `Document.write` writes `Document(data='<svg ...', width=...)`, which no XML parser reads; only the first element is in it, and a document that begins with a text raises AttributeError
* `Arc.get_ellipse` raises NameError; with the class imported, it would take the radii for cy and rx and the angle for ry
* `Color.distance_sq` shifts the whole sum instead of the last term, so green counts 256 times too little: to black, #00ff00 is nearer than #000018, and the triangle inequality fails
* `Arc._integral_length` is called by the tests only, by nothing in svgio; on the reals it is right to sweep^2 max(rx, ry) / 100000

## Tests against wrong programs

`seeded/LOG.jsonl` has one line per edit of the model. `lemmas_failed` are the statements whose own proof stopped going
through when the edited copy was rebuilt; `theorems_failed` are the property theorems among them or resting on them.

* A proof that fails does not by itself show that the claim became false: the script may only match the old text.
  The control entry (fmt_G, `e0 - 0`, behaviour unchanged) fails five theorems in this way.
  So the log is strong evidence about edits that survive, weaker about those that are caught.
* An edit that no theorem notices is listed with what was added, followed by an entry of the rerun.
* Sixteen results made with a faulty script were thrown away before they were logged: it blamed errors in indented
  section lemmas on an earlier lemma, or gave admitted section lemmas too many arguments. They were run again.

## Trusted base

* Coq 8.16.1's kernel (also re-checked by coqchk).
* The faithfulness of the hand transcription; each definition cites its source lines.
* For the Float area: Flocq's formalisation of IEEE 754; that Python's floats are binary64 rounded to nearest even; that
  `**` is right at 0 and 1 and otherwise to two units in the last place on [0,1] (hypothesis `good_pow`, met by repeated
  multiplication); that numpy.interp computes what `finterp` says.
* Axioms: what `Print Assumptions` lists, by theorem:

<!-- assumptions begin -->
* **Closed under the global context (no axioms)**
  * Alias_Thms: alias_run_refines, alias_run_unshared, alias_frame, alias_subpath_imul, alias_subpath_shares, alias_list_refuted, alias_append_refuted, alias_extend_refuted
  * ColorDist_Thms: color_distance_redmean_partial, color_distance_green, color_distance_rank_refuted
  * ColorInit_Thms: color_init_channels, color_init_invisible, color_init_opaque_refuted, color_init_positional, color_init_positional3, color_init_five_refuted, color_init_packed, color_init_none, color_init_hsl_grey, color_init_hsl_refuted, color_init_hue_opaque
  * Color_Thms: color_text_roundtrip, color_text_channels, color_none_text_refuted, color_set_red, color_set_green, color_set_blue, color_set_alpha, color_set_opacity, color_get_opacity, color_css_hex, color_argb_write_read, color_argb_rebuilds, color_rgb_write_read, color_rgb_channels, color_eq_equivalence, color_eq_sees_channels, color_eq_none, color_keywords_partial, color_keywords_refuted, color_unknown_word_black, color_rgb_notation_partial, color_rgb_percent_notation, color_rgb_decimal_refuted, color_over_porter_duff, color_over_between, color_over_text_refuted, color_distance_partial, color_distance_zero_close, color_distance_zero_refuted, color_hsl_roundtrip_partial, color_hsl_writeback_refuted, color_hsl_text_range, color_hsl_text_css, color_hsl_wrap_refuted, color_distinct_injective_partial, color_distinct_low_root_refuted
  * DocWrite_Thms: document_write_partial, document_write_refuted, document_write_first_refuted, document_write_text_refuted
  * DomApi_Thms: children_walk_partial, children_walk_ends, children_walk_refuted, children_ends, element_children, connected, equal_node_shape, equal_node_refuted, property_nearest, property_own, property_href, property_href_refuted, property_geometry_refuted, property_hidden, property_missing, property_viewbox
  * Dom_Thms: parse_rebuilds_partial, parse_raises, parse_defs_refuted, parse_mask_refuted, write_back_partial, write_text_refuted, write_name_refuted, lookup_last, lookup_other, lookup_sound, lookup_complete, lookup_builder_refuted, lookup_url, lookup_hash_refuted, lookup_two_urls_refuted, values_nearest, values_raise, siblings_partial, siblings_first, siblings_leaf_refuted, previous_element_refuted, siblings_missing, builder_keeps_partial, builder_circle_refuted, builder_keyword_refuted, builder_strict, shadow_balanced, shadow_order, shadow_malformed_refuted, links_agree
  * ElemRepr_Thms: elem_repr_form, elem_repr_tells_partial, elem_repr_tells_refuted, elem_repr_text_refuted
  * Font_Thms: font_shorthand_partial, font_decimal_refuted, font_keyword_refuted, font_family_refuted, font_height_refuted, font_spaces_refuted, font_reset_refuted, font_twice_refuted
  * Hull_Thms: hull_encloses_partial, hull_encloses_refuted, hull_ends, hull_around_partial
  * Image_Thms: image_data_partial, image_data_refuted, image_load_refuted, image_load_partial, image_load_data_partial
  * Length_Thms: length_text_roundtrip, length_text_near, length_text_reads, length_value_css_partial, length_value_css_near, length_value_pt_refuted, length_value_vminmax_partial, length_value_vmin_refuted, length_value_vmax_refuted, length_value_percent_of_length, length_value_percent_of_text, length_value_percent_percent_refuted, length_value_symbolic_partial, length_value_unknown_unit_refuted, length_eq_reflexive, length_eq_partial, length_eq_refuted, length_eq_always_true, length_eq_symmetric_refuted, length_eq_number_refuted, length_eq_number, length_float, length_order_partial, length_lt_irreflexive, length_lt_transitive_partial, length_lt_transitive_refuted, length_add_value_partial, length_sub_value_partial, length_rsub_value_partial, length_add_sub_partial, length_add_defined, length_add_pt_pc_refuted, length_scale_value, length_mul_div, length_ratio_partial, length_ratio_zero, length_ratio_incompatible, length_ratio_pt_pc_refuted, length_convert_keeps_size
  * Paint_Thms: fill_partial, fill_bad, fill_number, fill_infinite_refuted, stroke_partial, stroke_diverges, stroke_ends_refuted
  * PathCall_Thms: path_line_call, path_move_call, path_vertical_call, path_horizontal_call, path_quad_call, path_cubic_call, path_smooth_quad_call, path_smooth_cubic_call, path_smooth_void, path_arcs_call, path_call_relative_refuted, path_arc_call, path_first_point
  * PathClose_Thms: path_direct_close, path_direct_close_idempotent
  * PathD_Thms: path_text_roundtrip_partial, path_text_stable_partial, path_text_mixed_refuted, path_text_exponent_refuted, path_str_raises, segment_str_reads_partial, segment_str_refuted
  * PathEdit_Thms: path_copy_refuted, path_iadd_kinds, path_iadd_whole, path_is_valid, path_append_joined, path_insert_joined_partial, path_insert_front_joined, path_setitem_joined_partial, path_delitem_joined_partial, path_delitem_first_joined, path_slices_joined, path_validate_joined, path_extend_joined_partial, path_setitem_negative_refuted, path_insert_negative_refuted, path_delitem_negative_refuted, path_insert_close_refuted, path_delitem_move_refuted, path_extend_refuted, path_setitem_text_raises, subpaths_partition, subpaths_consecutive, subpath_reads, subpath_bounds_refuted, subpath_write_partial, subpath_delete_partial, path_index_errors, subpath_iadd_refuted, path_reverse_partial, path_reverse_twice_partial, subpath_reverse_partial, path_reverse_no_move_refuted, path_reverse_after_close_refuted, approximate_arcs_partial
  * PathElem_Thms: path_elem_segments_partial, path_elem_transform_refuted, path_elem_own_refuted, line_elem_bbox_refuted, shape_d_refuted
  * PathLetters_Thms: path_text_letters, subpath_d_letters
  * PathRound_Thms: path_text_digits_partial, path_text_drift_partial, segment_str_digits_partial
  * PathSeq_Thms: segment_eq_points, path_eq_points, path_eq_reflexive_symmetric, segment_eq_flags, path_eq_printed_partial, subpath_eq_points, segment_eq_transitive_refuted, subpath_eq_printed_refuted, segment_getitem, segment_iter_partial, segment_iter_refuted, segment_nested, segment_nested_refuted, segment_bbox_points, path_as_points_partial, path_index_first, path_contains_count, path_pop_last, path_pop_joined_partial, path_remove_first, path_remove_missing, path_clear_empty, subpath_d_reads_partial, subpaths_d_read_partial, subpath_d_smooth_refuted
  * PathShort_Thms: path_short_partial, path_short_refuted
  * PathText_Thms: path_parse_ends, path_parse_foreign, path_parse_appends, path_parse_keeps, path_parse_connected, path_parse_connected_onto, path_parse_svg_lenient, path_relative_absolute, path_relative_step, path_implicit_repetition, path_separators, path_numbers_by_value, path_smooth_partial, path_smooth_refuted, path_close_returns
  * PointDyn_Thms: point_forms, point_forms_in_place, point_forms_equal, point_forms_moves, point_text, point_refuses_partial, point_refuses_refuted, point_equal_raises_refuted, point_matrix_refuted, point_matrix_order_refuted, point_eq_symmetric, point_eq_transitive_refuted, point_hash_refuted, point_unpacks, point_item_set, point_item_bounds, matrix_items, matrix_item_bounds, matrix_unpacks_refuted
  * PointText_Thms: format_G_reads_back, point_text_pair, point_str_reads_back_partial, point_str_exponent_refuted, point_text_no_number
  * RegexUse_Thms: number_pattern, length_pattern, viewbox_pattern, point_pattern, transform_pattern, color_pattern, url_pattern, path_pattern
  * Repr_Thms: repr_point, repr_color_partial, repr_color_none_refuted, repr_length, matrix_eq_entries, repr_matrix_partial, repr_matrix_length_refuted, repr_segment_partial, repr_relative_refuted, repr_cubic_control_refuted, repr_subpath_partial, repr_path_refuted, move_forms_partial, move_flags, move_forms_refuted, linear_forms
  * Shape_Thms: rect_outline_refuted, rect_none_refuted, line_plain_refuted, poly_outline_refuted
  * SubOp_Thms: subpath_radd_segment_partial, subpath_radd_text_partial, subpath_radd_text_refuted, subpath_add_refuted, subpath_imul_range, subpath_mul_refuted, segment_add_two, segment_add_joined_refuted, segment_add_text_refuted
  * ViewboxText_Thms: viewbox_attribute, viewbox_incomplete, viewbox_five_refuted, viewbox_noise_refuted, viewbox_forms
  * Viewbox_Thms: viewbox_meet_fits, viewbox_slice_covers, viewbox_none_stretches, viewbox_zero_raises, viewbox_spaces_refuted, viewbox_str_roundtrip
* **`ClassicalDedekindReals.sig_forall_dec`**
  * Matrix_Thms: matrix_of_numbers
  * Shape_Thms: line_outline_partial, line_number
* **`ClassicalDedekindReals.sig_forall_dec`, `FunctionalExtensionality.functional_extensionality_dep`**
  * Curve_Thms: segment_transform_point, segment_end_points, segment_reverse_point, segment_points, segment_in_control_box, closest_degenerate_refuted, closest_on_line_refuted
  * Image_Thms: image_bbox_partial, image_bbox_refuted
  * MatLen_Thms: matrix_lengths_add
  * Matrix_Thms: matrix_monoid, matrix_action, matrix_faithful, matrix_inverse, matrix_singular, matrix_point_in_inverse_space, matrix_det_area, matrix_det_mul, matrix_vector, matrix_is_identity, matrix_eq_close, matrix_eq_refl_sym
  * PathCache_Thms: path_cache_partial, path_reverse_length_partial, path_point_walks, path_point_ends, path_point_no_length, path_npoint_partial
  * Point_Thms: point_ring, point_operands
  * RealPath_Thms: validate_connects
  * Shape_Thms: circle_outline_refuted
* **`ClassicalDedekindReals.sig_forall_dec`, `ClassicalDedekindReals.sig_not_dec`, `FunctionalExtensionality.functional_extensionality_dep`**
  * Angle_Thms: angle_units_convert, angle_units_roundtrip, angle_text_units, angle_positive_degrees, angle_positive_degrees_upper_refuted, angle_normalized, angle_orthogonal, angle_eq_same_direction, angle_eq_close
  * ArcEllipse_Thms: arc_radius_axes
  * Arc_Thms: svg_arc_unique
  * ColorDist_Thms: color_distance_order, color_distance_triangle_refuted
  * Curve_Thms: bbox_cubic_refuted, closest_point_partial, closest_on_line
  * FloatDist_Thms: along_unique
  * MatLen_Thms: transform_lengths_sound, transform_lengths_partial, transform_percent_axes, transform_percent_partial, transform_percent_refuted, transform_mixed_refuted, transform_units_refuted
  * MatOp_Thms: matrix_operator, segment_operator_partial, path_operator_refuted, element_operator_refuted, left_operator_refuted, number_operator_refuted, segment_operator_refuted
  * Matrix_Thms: matrix_post_ops, matrix_pre_ops, matrix_axis_ops, matrix_constructors, matrix_centre_fixed, matrix_rotation_rigid
  * Point_Thms: point_abs, point_reflection, point_towards, point_distance_metric, point_polar_distance
  * RealPath_Thms: path_reverse_points_partial, segment_flip_points
  * ReprArc_Thms: repr_angle_partial, repr_arc_partial
  * Round_Thms: round_unit_partial, round_length_partial
  * Shape_Thms: rect_closed_partial, rect_corners_partial, ellipse_outline_refuted, ellipse_transformed_refuted
  * Transform_Thms: transform_list_denotes, transform_concat, transform_into, transform_skew_one_refuted
  * ViewboxText_Thms: viewbox_attributes_fit
  * Viewbox_Thms: viewbox_text_matrix
* **`ClassicalDedekindReals.sig_forall_dec`, `ClassicalDedekindReals.sig_not_dec`, `Classical_Prop.classic`, `FunctionalExtensionality.functional_extensionality_dep`**
  * Angle_Thms: angle_eq_wrap_refuted
  * ArcAngle_Thms: arc_point_at_angle, arc_point_at_angle_unique, arc_angle_at_point, arc_t_at_point, arc_t_of_point_at_t
  * ArcClose_Thms: arc_cubics_close, arc_quads_close, arc_cubics_default_close, arc_quads_default_close
  * ArcEllipse_Thms: arc_circular, arc_get_ellipse_refuted, arc_get_ellipse_radii_refuted
  * ArcInt_Thms: arc_integral_near, arc_integral_circle
  * Arc_Thms: svg_arc_partial, svg_arc_negative_refuted, svg_arc_zero_refuted, arc_d_roundtrip, arc_d_turns_refuted, arc_ends, arc_transform_partial, arc_transform_similar, arc_transform_scale, arc_transform_swap_refuted, arc_transform_shear_refuted, arc_curves_chain, arc_curves_default, arc_cubics_touch, arc_quads_meet, arc_quads_touch_refuted, arc_bbox_tight, arc_bbox_zero_refuted, arc_length_circle, arc_length_elliptic, arc_length_subdivision, arc_control_passes, arc_control_line_refuted, arc_sagitta_passes, arc_bulge_sagitta, arc_radius_solves, arc_radius_default_refuted
  * Curve_Thms: bbox_touched, bbox_range, bbox_cubic_partial, line_length_distance, quad_length_exact, quad_length_close, quad_length_refuted, cubic_length_subdivision, cubic_length_ends, cubic_length_integrand
  * FloatAngle_Thms: float_angle_units, float_positive_degrees_partial, float_positive_degrees_refuted, float_normalized, float_normalized_refuted, float_angle_eq_partial, float_whole_turns_refuted, float_orthogonal_partial, float_orthogonal_refuted
  * FloatClosest_Thms: float_closest_partial, float_closest_refuted, float_closest_ends_partial, float_closest_ends_refuted
  * FloatColor_Thms: float_hsl_read, float_hsl_roundtrip_partial, float_hsl_roundtrip_refuted, float_grey_roundtrip, float_over, float_percent_partial, float_percent_refuted, float_hsl_text, float_hsl_text_refuted
  * FloatDist_Thms: float_distance, float_distance_symmetric, float_distance_zero, float_distance_axis, float_distance_whole, float_length, float_length_grows, float_along_partial, float_along_ends, float_distance_refuted
  * FloatHull_Thms: float_orientation_whole, float_orientation_partial, float_hull_whole, float_hull_ends, float_hull_partial, float_hull_refuted
  * FloatInv_Thms: float_inverse_partial, float_singular
  * FloatLength_Thms: float_length_value, float_length_float, float_length_add, float_length_order, float_length_order_units, float_length_order_refuted, float_to_unit_settles, float_to_unit_same, float_to_unit_same_refuted
  * FloatPath_Thms: float_path_settles, float_path_drift, float_path_relative, float_path_returns_refuted
  * FloatText_Thms: float_reads_nearest, float_str_settles, float_str_short, float_str_same_refuted, float_length_settles, float_viewbox_text_settles, float_point_settles, float_point_settles_refuted
  * FloatTransform_Thms: float_transform_close, float_transform_whole, float_transform_outcome
  * FloatView_Thms: float_viewbox_fits, float_viewbox_stretches, float_viewbox_same, float_viewbox_inside_refuted, float_viewbox_scale_refuted
  * FloatWalk_Thms: float_walk_partial, float_walk_ends, float_walk_refuted
  * Float_Thms: float_points_close, float_ends_partial, float_ends_refuted, float_line_in_box_partial, float_in_box_refuted, float_line_overflow_refuted, float_line_box, float_quad_box, float_apply_close, float_apply_whole, float_compose_partial, float_compose_refuted, float_inverse_refuted, float_eq_large, float_eq_close, float_eq_refuted, float_steps_partial, float_steps_whole, float_steps_refuted, float_alpha_kept, float_opacity_close
  * PathBox_Thms: subpath_bbox_union, subpath_bbox_contains_partial, subpath_bbox_move_refuted
  * PathCache_Thms: path_cache_reverse_refuted, path_cache_subpath_refuted, path_cache_settings_refuted, path_npoint_refuted
  * PathElem_Thms: path_elem_bbox_partial, path_elem_empty, path_elem_bbox_move_refuted, path_elem_close_refuted, line_elem_bbox_partial
  * Point_Thms: point_polar_angle, point_angle_range, point_pow_partial, point_pow_refuted, point_pow_imaginary_raises
  * RealPath_Thms: approximate_arcs_real_partial, approximate_cubics_close_partial, approximate_quads_close_partial, approximate_default_close_partial, path_data_curves_partial, approximate_no_arcs, approximate_flat_arc_refuted, approximate_negative_refuted, approximate_first_arc_refuted, arc_reverse_data
  * ReprArc_Thms: repr_angle_refuted
  * Round_Thms: round_repo_refuted, round_angle_partial, round_angle_refuted, round_t_at_point_partial, round_arc_t_partial, round_arc_angle_partial, round_arc_default_refuted
  * Shape_Thms: rect_rounded_partial, rect_radii_refuted, ellipse_closed_partial
<!-- assumptions end -->

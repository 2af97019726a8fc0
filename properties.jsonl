{"id": "C01", "title": "Hex text round-trips every colour", "statement": "Printing any colour that holds a 32-bit RGBA value (via .hex, .hexa or str()) and constructing a Color from that text gives back a colour with the same red, green, blue and alpha.", "quantifier": "all 2^32 RGBA values", "why_tests_cant": "There are 2^32 values and the text form changes shape (6 or 8 digits) depending on alpha; tests sample a handful.", "anchors": ["svgio/basic.py: Color.hex, Color.hexa, Color.__str__, Color.parse, Color.parse_color_hex", "svgio/constants.py: REGEX_COLOR_HEX"]}
{"id": "C02", "title": "Channel setters are independent and saturating", "statement": "Assigning any number to red, green, blue or alpha makes that channel read back as the number truncated and clamped into 0..255, and the other three channels read exactly as before.", "quantifier": "all starting colours (any integer value) and all assigned numbers, also negative, fractional and huge ones", "why_tests_cant": "Independence of bit fields must hold for every prior state and argument.", "anchors": ["svgio/basic.py: Color.red, Color.green, Color.blue, Color.alpha, Color.crimp"]}
{"id": "C03", "title": "CSS short and long hex notation", "statement": "For every string of 3, 4, 6 or 8 hex digits in any letter case, with or without a leading #, the resulting channels are those CSS prescribes: a short digit d denotes 17*d, a missing alpha is opaque.", "quantifier": "all hex strings of the four lengths", "why_tests_cant": "16^8 strings times letter-case variants.", "anchors": ["svgio/basic.py: Color.parse, Color.parse_color_hex", "svgio/constants.py: REGEX_COLOR_HEX"]}
{"id": "C04", "title": "Packed integer views agree", "statement": "rgb, rgba and argb are views of one colour: writing any 32-bit argb and reading it returns it, writing any 24-bit rgb and reading returns it with alpha 255, and the argb view of any colour rebuilds an equal colour.", "quantifier": "all integers in the respective ranges, all colours", "why_tests_cant": "Bit-level identities over the whole range.", "anchors": ["svgio/basic.py: Color.rgb, Color.rgba, Color.argb"]}
{"id": "C05", "title": "Colour equality is an equivalence that sees exactly the channels", "statement": "== on colours is reflexive, symmetric and transitive, and two non-None colours are equal exactly when all four channels are equal; None equals only None.", "quantifier": "all pairs and triples of colours", "why_tests_cant": "Relations over all values.", "anchors": ["svgio/basic.py: Color.__eq__, Color.__ne__"]}
{"id": "C06", "title": "Colour keywords follow the SVG 1.1 table", "statement": "Every SVG 1.1 colour keyword, in any letter case and with spaces anywhere, denotes the opaque colour of the SVG 1.1 table; any other text that is not a number is black.", "quantifier": "all 147 keywords, all case and space variants, all other strings", "why_tests_cant": "Infinitely many spellings and non-keywords.", "anchors": ["svgio/basic.py: Color.parse_color_lookup"]}
{"id": "C07", "title": "Functional colour notation", "statement": "rgb(r,g,b), rgba(r,g,b,a) and the percent forms yield the channels CSS prescribes: numbers clamped to 0..255, percentages scaled by 2.55 and rounded, alpha clamped to 0..1 and rounded to 0..255.", "quantifier": "all integer/decimal arguments in any textual layout the grammar admits", "why_tests_cant": "Infinitely many argument texts.", "anchors": ["svgio/basic.py: Color.parse, Color.parse_color_rgb, Color.parse_color_rgbp, Color.rgb_to_int", "svgio/constants.py: REGEX_COLOR_RGB, REGEX_COLOR_RGB_PERCENT"]}
{"id": "C08", "title": "over is Porter-Duff source-over", "statement": "Compositing c1 over c2 gives the Porter-Duff alpha and colour up to integer rounding: an opaque c1 gives c1, a fully transparent c1 gives c2, every result channel lies between the two inputs' channels, the result alpha is at least each input alpha, and never divides by zero.", "quantifier": "all pairs of 32-bit colours", "why_tests_cant": "2^64 pairs.", "anchors": ["svgio/basic.py: Color.over, Color.blend, Color.rgb_to_int"]}
{"id": "C09", "title": "Colour distance is a usable dissimilarity", "statement": "distance_sq is non-negative, symmetric and zero from a colour to itself; it is zero only for colours with equal red, green and blue.", "quantifier": "all pairs of colours", "why_tests_cant": "2^48 pairs.", "anchors": ["svgio/basic.py: Color.distance_sq, Color.distance"]}
{"id": "C10", "title": "HSL conversion inverts", "statement": "Converting any opaque RGB colour to hue, saturation, lightness and back gives the same colour; writing back the value just read from hue, saturation or lightness changes nothing.", "quantifier": "all 2^24 RGB values", "why_tests_cant": "2^24 values in exact arithmetic, with case splits on which channel is largest.", "anchors": ["svgio/basic.py: Color.hue, Color.saturation, Color.lightness, Color.hsl, Color.hsl_to_int"]}
{"id": "C11", "title": "HSL text yields in-range colours", "statement": "hsl()/hsla() text with any hue, saturation and lightness gives channels in 0..255, grey when saturation is 0, black at lightness 0 and white at lightness 100%.", "quantifier": "all numeric arguments", "why_tests_cant": "Infinitely many arguments, wrap-around of hue.", "anchors": ["svgio/basic.py: Color.parse_color_hsl, Color.hsl_to_int"]}
{"id": "C12", "title": "distinct() never repeats", "statement": "Color.distinct(i) gives different colours for different indices below 256^3.", "quantifier": "all pairs of indices below 16777216", "why_tests_cant": "2^47 pairs of indices.", "anchors": ["svgio/basic.py: Color.distinct"]}
{"id": "C13", "title": "Length text round-trips", "statement": "For every decimal amount with at most 12 decimals and every unit, printing a Length and parsing the text gives the same amount and unit.", "quantifier": "all amounts and units", "why_tests_cant": "Infinitely many amounts.", "anchors": ["svgio/basic.py: Length.__init__, Length.__str__, Length.str", "svgio/constants.py: REGEX_LENGTH"]}
{"id": "C14", "title": "Length resolution follows the CSS unit table", "statement": "value() with enough information (ppi, relative length, font size, font height, viewbox) returns the CSS size: mm, cm, in via ppi; px as is; pt 4/3 px and pc 16 px; % of the relative length; em, ex of the font; vw, vh of the viewbox; vmin the smaller and vmax the larger dimension.", "quantifier": "all amounts, units and contexts", "why_tests_cant": "Ranges over all real contexts.", "anchors": ["svgio/basic.py: Length.value"]}
{"id": "C15", "title": "Unresolvable lengths stay symbolic", "statement": "value() called without the information its unit needs returns an equal Length with the same unit instead of guessing a number.", "quantifier": "all lengths and partial contexts", "why_tests_cant": "All combinations of missing information.", "anchors": ["svgio/basic.py: Length.value"]}
{"id": "C16", "title": "Length equality means equal size", "statement": "Two lengths compare equal exactly when they denote the same size: equality is reflexive, symmetric, and equal lengths of convertible units resolve to the same number.", "quantifier": "all pairs of lengths", "why_tests_cant": "Pairs of arbitrary lengths.", "anchors": ["svgio/basic.py: Length.__eq__"]}
{"id": "C17", "title": "Length ordering is consistent", "statement": "Whenever < is defined it is irreflexive and transitive, and a < b exactly when a resolves to a smaller number than b.", "quantifier": "all pairs and triples of convertible lengths", "why_tests_cant": "Order laws over arbitrary triples and unit mixes.", "anchors": ["svgio/basic.py: Length.__lt__, Length.__le__, Length.__gt__, Length.__ge__, Length.__sub__"]}
{"id": "C18", "title": "Length addition resolves additively", "statement": "For lengths of convertible units a+b resolves to value(a)+value(b), a+b-b resolves to value(a), and incompatible units raise ValueError and never yield a wrong number.", "quantifier": "all pairs of lengths and contexts", "why_tests_cant": "All amounts and unit pairs.", "anchors": ["svgio/basic.py: Length.__iadd__, Length.__add__, Length.__sub__, Length.__neg__"]}
{"id": "C19", "title": "Length scaling", "statement": "Multiplying a length by k and dividing by k (k not 0) resolves to the same size; the ratio of two convertible lengths is the ratio of their sizes.", "quantifier": "all lengths and factors", "why_tests_cant": "All reals.", "anchors": ["svgio/basic.py: Length.__imul__, Length.__truediv__"]}
{"id": "C20", "title": "Angle units convert consistently", "statement": "Building an angle from degrees, radians, gradians or turns and reading any unit is the true conversion; a textual angle in any unit denotes the same angle as the corresponding constructor.", "quantifier": "all real angle values and the four units", "why_tests_cant": "All reals.", "anchors": ["svgio/basic.py: Angle.degrees, Angle.radians, Angle.gradians, Angle.turns, Angle.as_degrees, Angle.as_radians, Angle.as_gradians, Angle.as_turns, Angle.parse"]}
{"id": "C21", "title": "as_positive_degrees terminates, congruent and non-negative", "statement": "as_positive_degrees returns for every angle; the result is congruent to the angle modulo 360 and not negative.", "quantifier": "all real angles", "why_tests_cant": "A while loop whose iteration count depends on the input.", "anchors": ["svgio/basic.py: Angle.as_positive_degrees"]}
{"id": "C22", "title": "Points form the complex plane", "statement": "Point +, - and * with points obey the laws of complex numbers, and abs is multiplicative.", "quantifier": "all points", "why_tests_cant": "Algebraic laws over all reals.", "anchors": ["svgio/basic.py: Point.__add__, Point.__sub__, Point.__mul__, Point.__abs__"]}
{"id": "C23", "title": "reflected_across is a point reflection", "statement": "Reflecting p across c twice gives p; c is the midpoint of p and its reflection; distances to c are preserved.", "quantifier": "all pairs of points", "why_tests_cant": "All reals.", "anchors": ["svgio/basic.py: Point.reflected_across"]}
{"id": "C24", "title": "towards, polar and distance agree", "statement": "towards(p,q,0)=p and towards(p,q,1)=q, the point at t divides the segment in proportion t; polar_to(angle,d) is at distance |d|.", "quantifier": "all points, parameters, angles", "why_tests_cant": "All reals.", "anchors": ["svgio/basic.py: Point.towards, Point.move_towards, Point.polar, Point.polar_to, Point.distance"]}
{"id": "C25", "title": "Convex hull encloses the input", "statement": "convex_hull terminates and yields vertices taken from the input that form a convex polygon containing every input point.", "quantifier": "all finite lists of points", "why_tests_cant": "Arbitrary finite inputs including collinear and duplicate points.", "anchors": ["svgio/basic.py: Point.convex_hull, Point.orientation"]}
{"id": "C26", "title": "Printed coordinates read back", "statement": "Printing a point (or a path coordinate) and reading the text gives the same number to 12 significant digits.", "quantifier": "all finite coordinates", "why_tests_cant": "All magnitudes, both fixed and exponent notation.", "anchors": ["svgio/basic.py: Point.__str__, Length.str", "svgio/path.py: Path.d"]}
{"id": "C27", "title": "Matrices are a monoid acting on points", "statement": "Matrix multiplication is associative with Matrix() neutral, and transforming a point by a*b equals transforming by a then by b.", "quantifier": "all matrices and points", "why_tests_cant": "All reals.", "anchors": ["svgio/basic.py: Matrix.matrix_multiply, Matrix.__mul__, Matrix.__matmul__, Matrix.point_in_matrix_space, Matrix.identity"]}
{"id": "C28", "title": "inverse undoes the transform", "statement": "For every invertible matrix, ~m composed with m on either side is the identity, inverting twice returns m; a singular matrix raises ZeroDivisionError.", "quantifier": "all matrices", "why_tests_cant": "All reals.", "anchors": ["svgio/basic.py: Matrix.inverse, Matrix.__invert__"]}
{"id": "C29", "title": "pre_/post_ operations compose on the right side", "statement": "post_X(args) equals following the current transform by X(args), pre_X(args) equals preceding it, and X about a centre fixes that centre.", "quantifier": "all matrices, arguments and centres", "why_tests_cant": "All reals, all operations.", "anchors": ["svgio/basic.py: Matrix.post_cat, Matrix.post_scale, Matrix.post_translate, Matrix.post_rotate, Matrix.post_skew, Matrix.pre_cat, Matrix.pre_scale, Matrix.pre_translate, Matrix.pre_rotate, Matrix.pre_skew"]}
{"id": "C30", "title": "Transform lists apply right to left as SVG requires", "statement": "Parsing the concatenation of two transform lists equals the composition of the two parsed transforms, and each transform function denotes the SVG matrix.", "quantifier": "all transform lists", "why_tests_cant": "Lists of unbounded length.", "anchors": ["svgio/basic.py: Matrix.parse", "svgio/constants.py: REGEX_TRANSFORM_TEMPLATE, REGEX_TRANSFORM_PARAMETER"]}
{"id": "C31", "title": "Rotation is rigid, determinant is area scale", "statement": "Rotations preserve distances; every matrix scales oriented areas by its determinant, and determinants multiply under composition.", "quantifier": "all matrices, angles, points", "why_tests_cant": "All reals.", "anchors": ["svgio/basic.py: Matrix.rotate, Matrix.determinant, Matrix.vector"]}
{"id": "C32", "title": "preserveAspectRatio meet fits, slice covers, none stretches", "statement": "The viewbox transform maps the viewBox into the viewport: with none exactly onto it; with meet uniformly scaled and inside; with slice uniformly scaled and covering; aligned min/mid/max on each axis as named.", "quantifier": "all element sizes, viewboxes with positive dimensions, and the nine alignments", "why_tests_cant": "All reals times all alignments.", "anchors": ["svgio/basic.py: Viewbox.viewbox_transform, Viewbox.transform"]}
{"id": "C33", "title": "Viewbox text selects the same transform as numbers", "statement": "The textual transform returned for a viewbox, parsed by Matrix, maps viewBox corners to where preserveAspectRatio requires.", "quantifier": "all sizes and viewboxes", "why_tests_cant": "Composition of printer and parser over all numbers.", "anchors": ["svgio/basic.py: Viewbox.viewbox_transform, Matrix.parse"]}
{"id": "C34", "title": "Path data parsing terminates with a prefix of the data", "statement": "Parsing any string as path data returns after finitely many steps, and what is drawn depends only on the text up to the first unrecognisable token; the drawing up to that point is kept.", "quantifier": "all strings", "why_tests_cant": "All strings, including malformed ones.", "anchors": ["svgio/path.py: PathLexicalParser.parse, Path.parse", "svgio/constants.py: svg_re, num_re, flag_re"]}
{"id": "C35", "title": "Parsed paths are connected", "statement": "In every path obtained from path data each segment starts where the previous one ended and each close returns to the start of its own subpath.", "quantifier": "all path data strings", "why_tests_cant": "All command sequences.", "anchors": ["svgio/path.py: PathLexicalParser.parse, Path.move, Path.line, Path.closed, Path.z_point"]}
{"id": "C36", "title": "Relative and absolute commands are equivalent", "statement": "A relative command draws exactly what the absolute command draws with the current point added to each coordinate.", "quantifier": "all command sequences and current points", "why_tests_cant": "All histories.", "anchors": ["svgio/path.py: PathLexicalParser._rcoord, PathLexicalParser.parse"]}
{"id": "C37", "title": "Implicit command repetition", "statement": "Extra coordinate groups after a command repeat it (after a move they draw lines), exactly as if the letter had been written again.", "quantifier": "all numbers of repeated groups", "why_tests_cant": "Unbounded repetition.", "anchors": ["svgio/path.py: PathLexicalParser.parse"]}
{"id": "C38", "title": "Smooth commands reflect only matching curves", "statement": "S reflects the previous control point only after C/S, T only after Q/T, and otherwise uses the current point, as SVG prescribes.", "quantifier": "all command histories", "why_tests_cant": "All preceding histories.", "anchors": ["svgio/path.py: Path.smooth_point, Path.smooth_cubic, Path.smooth_quad"]}
{"id": "C39", "title": "Separators do not matter", "statement": "Any mixture of commas and white space, or none where a sign or point starts the next number, gives the same numbers.", "quantifier": "all token sequences and separators", "why_tests_cant": "Infinitely many layouts.", "anchors": ["svgio/constants.py: PATTERN_FLOAT, PATTERN_COMMAWSP, num_re", "svgio/path.py: PathLexicalParser._number, PathLexicalParser._more"]}
{"id": "C40", "title": "Path text round-trips", "statement": "Printing a connected path of moves, lines, Beziers and closes in relative or absolute form and parsing it draws the same segments.", "quantifier": "all connected segment lists", "why_tests_cant": "Unbounded lists, all smooth/relative flags.", "anchors": ["svgio/path.py: Path.svg_d, Path.d, Move.d, Line.d, Close.d, QuadraticBezier.d, CubicBezier.d, PathLexicalParser.parse"]}
{"id": "C41", "title": "Close returns to the last move", "statement": "A Z ends at the point of the most recent move, and drawing afterwards continues from there.", "quantifier": "all command histories", "why_tests_cant": "All histories.", "anchors": ["svgio/path.py: Path.closed, Path.z_point, Path.current_point"]}
{"id": "C42", "title": "Copying a path preserves it", "statement": "Path(path), copy(path) and path+other contain every segment of path, and later edits to one do not change the other.", "quantifier": "all paths", "why_tests_cant": "All paths and edit histories.", "anchors": ["svgio/path.py: Path.__init__, Path.__copy__, Path.__add__"]}
{"id": "C43", "title": "Edits keep paths connected", "statement": "Appending, inserting, deleting, replacing or extending segments on a connected path leaves a connected path.", "quantifier": "all connected paths, positions and segments", "why_tests_cant": "All histories of edits.", "anchors": ["svgio/path.py: Path.append, Path.insert, Path.__delitem__, Path.__setitem__, Path.extend, Path._validate_connection, Path.validate_connections, Path._is_valid"]}
{"id": "C44", "title": "Subpaths partition the path", "statement": "as_subpaths yields consecutive, non-overlapping slices covering the path, each beginning with a move except possibly the first, with at most one move each.", "quantifier": "all paths", "why_tests_cant": "Unbounded segment lists.", "anchors": ["svgio/path.py: Path.as_subpaths, Path.subpath, Path.count_subpaths, Subpath.__init__"]}
{"id": "C45", "title": "Subpath views address the right segments", "statement": "Indexing, slicing and iterating a subpath gives exactly the parent's segments in its range; writes through the view change only those.", "quantifier": "all paths, subpaths and indices (also negative)", "why_tests_cant": "All index values.", "anchors": ["svgio/path.py: Subpath.__getitem__, Subpath.__setitem__, Subpath.index_to_path_index, Subpath.__len__, Subpath.__iter__"]}
{"id": "C46", "title": "Reversing traverses the same geometry backwards", "statement": "Reversing a connected path gives a connected path that visits the same points in the opposite order, and reversing twice restores the original geometry.", "quantifier": "all connected paths and subpaths", "why_tests_cant": "Unbounded lists.", "anchors": ["svgio/path.py: Path.reverse, PathSegment.reverse, Subpath.reverse, Subpath._reverse_segments"]}
{"id": "C47", "title": "Length cache never goes stale", "statement": "point(t) and length() called after any history of edits give what they would give on a freshly built equal path.", "quantifier": "all histories of edits and queries", "why_tests_cant": "Cache coherence over all histories.", "anchors": ["svgio/path.py: Path._calc_lengths, Path.length, Path.point, Path.reverse, Path.append, Path.insert, Subpath.reverse"]}
{"id": "C48", "title": "point(t) walks the path by length", "statement": "For every t in [0,1], point(t) lies on the segment that contains the fraction t of the total length; point(0) is the first drawn point and point(1) the last.", "quantifier": "all paths and parameters", "why_tests_cant": "All real t.", "anchors": ["svgio/path.py: Path.point, Path._calc_lengths"]}
{"id": "C49", "title": "Transforming a path transforms its points", "statement": "For segments other than arcs, multiplying by a matrix and taking the point at t equals taking the point at t and then transforming it.", "quantifier": "all matrices, segments, parameters", "why_tests_cant": "All reals.", "anchors": ["svgio/path.py: PathSegment.__imul__, Line, QuadraticBezier, CubicBezier, Path.__imul__"]}
{"id": "C50", "title": "approximate_arcs leaves no arcs", "statement": "After approximate_arcs_with_cubics/quads the path has no arc, all other segments are unchanged and in order, the path stays connected and ends where it ended.", "quantifier": "all paths", "why_tests_cant": "Unbounded lists with any number of arcs.", "anchors": ["svgio/path.py: Path.approximate_arcs_with_cubics, Path.approximate_arcs_with_quads, Arc.as_cubic_curves, Arc.as_quad_curves"]}
{"id": "C51", "title": "Curves interpolate their end points", "statement": "point(0) is the start and point(1) the end for every line, close, quadratic and cubic; the reversed segment at t is the original at 1-t.", "quantifier": "all control points and t", "why_tests_cant": "All reals.", "anchors": ["svgio/path.py: Linear.point, QuadraticBezier.npoint, CubicBezier.npoint, PathSegment.reverse, CubicBezier.reverse"]}
{"id": "C52", "title": "Curves stay in the box of their control points", "statement": "For t in [0,1] every coordinate of a Bezier point lies between the smallest and largest control coordinate.", "quantifier": "all control points and t in [0,1]", "why_tests_cant": "All reals.", "anchors": ["svgio/path.py: QuadraticBezier.npoint, CubicBezier.npoint"]}
{"id": "C53", "title": "Bounding boxes contain the segment", "statement": "bbox() of a line, quadratic or cubic contains point(t) for every t in [0,1], and every side of it is touched by the curve.", "quantifier": "all control points and t", "why_tests_cant": "A universally quantified containment; numerical sampling cannot exclude gaps.", "anchors": ["svgio/path.py: Linear.bbox, QuadraticBezier.bbox, CubicBezier.bbox, CubicBezier._real_minmax"]}
{"id": "C54", "title": "closest_segment_point is closest", "statement": "The returned point lies on the segment and no other point of the segment is nearer.", "quantifier": "all segments and query points", "why_tests_cant": "All reals.", "anchors": ["svgio/path.py: Linear.closest_segment_point"]}
{"id": "C55", "title": "Curve length is between chord and control polygon", "statement": "length() of a line is its distance; the recursive subdivision estimate for curves terminates and lies between the chord and the true upper bound.", "quantifier": "all curves and error settings", "why_tests_cant": "Recursive subdivision depth depends on input.", "anchors": ["svgio/path.py: PathSegment.segment_length, Linear.length, QuadraticBezier.length, CubicBezier.length"]}
{"id": "C56", "title": "SVG arcs pass through their end points", "statement": "Parameterising any SVG arc (radii possibly too small, any rotation and flags) yields an ellipse through start and end, with radii scaled up only when needed and sweep sign given by the flag.", "quantifier": "all arc parameters with distinct end points and non-zero radii", "why_tests_cant": "All reals.", "anchors": ["svgio/path.py: Arc._svg_parameterize, Arc.point_at_t"]}
{"id": "C57", "title": "Arc to Bezier conversion is a chain", "statement": "as_cubic_curves/as_quad_curves yield a connected chain from the arc's start to its end.", "quantifier": "all arcs", "why_tests_cant": "Number of pieces depends on sweep.", "anchors": ["svgio/path.py: Arc.as_cubic_curves, Arc.as_quad_curves"]}
{"id": "C58", "title": "Arc bounding box contains the arc", "statement": "bbox() of an arc contains every point of the arc and has min <= max on both axes.", "quantifier": "all arcs and parameters", "why_tests_cant": "All reals.", "anchors": ["svgio/path.py: Arc.bbox"]}
{"id": "C59", "title": "Shapes decompose into closed connected outlines", "statement": "Rectangles (plain and rounded), circles, ellipses, lines, polylines and polygons yield connected segments; rectangles, circles, ellipses and polygons return to their start.", "quantifier": "all shape attributes", "why_tests_cant": "All reals.", "anchors": ["svgio/nodes.py: Rect.segments, Ellipse.segments, Circle.segments, Line.segments, Polyshape.segments"]}
{"id": "C60", "title": "Parsing rebuilds the element tree", "statement": "Parsing well-formed XML gives a tree with the same shape, tag types and attributes as the source.", "quantifier": "all element trees", "why_tests_cant": "Unbounded trees.", "anchors": ["svgio/nodes.py: Node.parse, Element, Document, BOOTSTRAP"]}
{"id": "C61", "title": "Serialise then parse is lossless", "statement": "Writing a document and parsing it back gives the same tree of tags, attributes and text.", "quantifier": "all documents", "why_tests_cant": "Unbounded trees.", "anchors": ["svgio/nodes.py: Node.xml, Node.tag, Document.write"]}
{"id": "C62", "title": "get_element_by_id and by url", "statement": "Looking up an id after parsing gives an element carrying that id if one exists and None otherwise; url(#id) and #id forms agree.", "quantifier": "all documents and ids", "why_tests_cant": "Unbounded documents, duplicate ids.", "anchors": ["svgio/nodes.py: Document.get_element_by_id, Document.get_element_by_url", "svgio/constants.py: REGEX_IRI"]}
{"id": "C63", "title": "Inherited values: nearest ancestor wins", "statement": "The value of an attribute on an element is its own if present, otherwise that of the nearest ancestor that has it.", "quantifier": "all trees, nodes and keys", "why_tests_cant": "Unbounded depth.", "anchors": ["svgio/nodes.py: Document.get_values, Document.get_ancestors, Node.__getattribute__"]}
{"id": "C64", "title": "Sibling navigation", "statement": "next_sibling and previous_sibling step to the adjacent child of the same parent, are inverse to each other, and return None at the ends.", "quantifier": "all trees and nodes", "why_tests_cant": "Unbounded children, structurally equal siblings.", "anchors": ["svgio/nodes.py: Node.next_sibling, Node.previous_sibling, Node.next_element_sibling, Node.previous_element_sibling"]}
{"id": "C65", "title": "Paint properties terminate", "statement": "Reading fill or stroke of any element returns a colour or None, combining fill-opacity/stroke-opacity.", "quantifier": "all attribute sets", "why_tests_cant": "All attribute combinations; divergence is not observable by finite tests in general.", "anchors": ["svgio/nodes.py: GraphicalElement.stroke, GraphicalElement.fill"]}
{"id": "C66", "title": "Element constructors store what they are given", "statement": "Building a circle, ellipse, rectangle or line from numbers and reading its geometry gives those numbers.", "quantifier": "all arguments", "why_tests_cant": "All argument values.", "anchors": ["svgio/nodes.py: Circle.__init__, Ellipse.__init__, Rect.__init__, Line.__init__"]}
{"id": "C67", "title": "Shadow traversal emits balanced events", "statement": "Replaying a stored subtree (as for use elements) emits a start and an end event for each node exactly once, properly nested and in document order.", "quantifier": "all trees", "why_tests_cant": "Unbounded trees, cyclic references.", "anchors": ["svgio/nodes.py: _shadow_iter"]}
{"id": "C68", "title": "Parent links agree with containment", "statement": "After parsing, and after any sequence of builder calls (doc.rect(...), group.circle(...)), every node's parent is the node whose child list contains it, and every node knows its document.", "quantifier": "all sources and all histories of builder calls", "why_tests_cant": "All histories.", "anchors": ["svgio/nodes.py: Node.parse, ElementBuilder.__call__, Node.__getattribute__"]}
{"id": "C69", "title": "Length unit conversion keeps the size", "statement": "to_mm, to_cm and to_inch of a length that resolves at the given ppi return a length in that unit which resolves at the same ppi to the same number of pixels, up to the 12 printed decimals.", "quantifier": "all lengths, contexts and non-zero ppi", "why_tests_cant": "All reals, and the conversion goes through text.", "anchors": ["svgio/basic.py: Length.to_mm, Length.to_cm, Length.to_inch"]}
{"id": "C70", "title": "Angles are equal exactly when they point the same way", "statement": "Two angles compare equal exactly when they denote the same direction: whole turns are ignored and nearly equal directions (within the tolerance) are equal.", "quantifier": "all pairs of real angles", "why_tests_cant": "All reals; directions on either side of the wrap-around.", "anchors": ["svgio/basic.py: Angle.__eq__"]}
{"id": "C71", "title": "Point power is the complex power", "statement": "p ** n is the n-th complex power of p (repeated multiplication).", "quantifier": "all points and all natural exponents", "why_tests_cant": "Unbounded exponents, all reals.", "anchors": ["svgio/basic.py: Point.__pow__"]}
{"id": "C72", "title": "Matrix equality and is_identity speak about the transform", "statement": "is_identity holds exactly when every point is left in place; equal matrices send every point to nearly the same place; equality is reflexive and symmetric.", "quantifier": "all matrices and points", "why_tests_cant": "All reals.", "anchors": ["svgio/basic.py: Matrix.is_identity, Matrix.__eq__"]}
{"id": "C73", "title": "Viewbox text reads back", "statement": "Printing a viewbox and reading the text gives the same four numbers to 12 decimals.", "quantifier": "all viewboxes", "why_tests_cant": "Composition of printer and parser over all numbers.", "anchors": ["svgio/basic.py: Viewbox.__str__, Viewbox.set_viewbox"]}
{"id": "C74", "title": "A segment's text reads back", "statement": "str of a segment with a start point parses to a move to its start and the same segment.", "quantifier": "all segments", "why_tests_cant": "All control points, flags and coordinates.", "anchors": ["svgio/path.py: PathSegment.__str__, Move.d, Line.d, Close.d, QuadraticBezier.d, CubicBezier.d"]}
{"id": "C75", "title": "direct_close closes without changing the outline", "statement": "After direct_close every close of a connected path has no length; the path is still connected, every close that had a length is preceded by a line that draws it, and nothing else changed. Doing it again changes nothing.", "quantifier": "all connected paths", "why_tests_cant": "Inserting while iterating backwards; each insertion relinks its neighbours, so all arrangements of closes matter.", "anchors": ["svgio/path.py: Path.direct_close, Path.insert, Path._validate_connection"]}
{"id": "C76", "title": "Printed arcs draw the same arc", "statement": "The numbers that Arc.d prints (radii, rotation, large-arc and sweep flag) parameterise an arc that visits the same point as the original at every t.", "quantifier": "all arcs on a genuine ellipse with a sweep below one turn and distinct ends", "why_tests_cant": "All reals; the two directions use different formulas.", "anchors": ["svgio/path.py: Arc.d, Arc._svg_parameterize"]}
{"id": "C77", "title": "Arcs solved from points or a radius", "statement": "Arc(start, end, control) is a circular arc from start to end through control; sagitta and bulge give the arc through the point at that height over the chord; r gives an arc of at most half a turn of that radius (or half the distance) in the direction asked for.", "quantifier": "all points, heights and radii, degenerate positions included", "why_tests_cant": "All reals; many special cases of vertical and horizontal chords.", "anchors": ["svgio/path.py: Arc.__init__"]}
{"id": "C78", "title": "Transforming an arc transforms its points", "statement": "The point at t of arc * matrix is the matrix applied to the point at t of the arc.", "quantifier": "all arcs, all invertible matrices, all t", "why_tests_cant": "All reals.", "anchors": ["svgio/path.py: Arc.__imul__"]}
{"id": "C79", "title": "Instructions that lack numbers are reported", "statement": "If a move, line, curve or arc instruction of path data (with its letter or in a repetition) has too few numbers, parsing raises ValueError and keeps exactly what was drawn before it.", "quantifier": "all path data with a complete beginning", "why_tests_cant": "All spellings of all beginnings and all truncations.", "anchors": ["svgio/path.py: PathLexicalParser.parse, PathLexicalParser._coord, PathLexicalParser._number"]}
{"id": "C80", "title": "Curves made of an arc stay close to it", "statement": "Every point of the curves as_cubic_curves() and as_quad_curves() yield lies within a fixed small fraction of the radii of the arc's ellipse, and every point of the arc lies that close to one of the curves; for a given number of pieces the bound follows from the angle of a piece.", "quantifier": "all arcs of an ellipse with positive radii, any sweep other than zero, every position on arc and curves", "why_tests_cant": "A test samples positions of chosen arcs; a bound needs all arcs and a continuum of positions.", "anchors": ["svgio/path.py: Arc.as_cubic_curves, Arc.as_quad_curves, Arc.point"]}
{"id": "C81", "title": "Segments and paths compare by sort and points", "statement": "Two segments are == exactly when they are of the same class and corresponding points are both missing or no coordinate differs by more than 1e-12 (arcs: and the sweep is the same), whatever their relative and smooth flags; two paths, or a subpath and a path, when they have as many segments and these are pairwise equal; a path equals the text printed for it. == is reflexive and symmetric.", "quantifier": "all segments, paths and subpaths", "why_tests_cant": "Equality is a relation on all pairs; tests compare a few pairs, and cannot show symmetry or that nothing else counts.", "anchors": ["svgio/path.py: Move.__eq__, Linear.__eq__, QuadraticBezier.__eq__, CubicBezier.__eq__, Arc.__eq__, Path.__eq__, Subpath.__eq__"]}
{"id": "C82", "title": "A segment is the sequence of its points", "statement": "len, indexing and iterating a segment agree: the points that define it in order, an IndexError beyond; iteration passes over missing points, and nested loops over one segment are independent; bbox() of a move, line or close is the smallest box around the points present; as_points() of a path lists the points of its segments.", "quantifier": "all segments, complete or not, every index", "why_tests_cant": "Missing points and nested loops combine in many ways that tests do not enumerate.", "anchors": ["svgio/path.py: PathSegment.__iter__, PathSegment.__next__, PathSegment.bbox, Move.__getitem__, Linear.__getitem__, QuadraticBezier.__getitem__, CubicBezier.__getitem__, Arc.__getitem__, Path.as_points"]}
{"id": "C83", "title": "The list methods of a path", "statement": "in, index and count find the segments equal to a value, index the first of them or ValueError; pop() returns the last segment and leaves the others unchanged, pop(k) returns segment k and keeps the rest connected; remove takes away the first equal segment; clear ends with an empty path.", "quantifier": "all paths, positions and segments", "why_tests_cant": "These methods come from MutableSequence through the path's own indexing and deleting; tests try few lengths and positions.", "anchors": ["svgio/path.py: Path (collections.abc.MutableSequence), Path.__getitem__, Path.__delitem__, Path.__len__"]}
{"id": "C84", "title": "A subpath prints a text of its own", "statement": "d() of any subpath gives text that, parsed alone, draws exactly the segments of that subpath, relative or absolute as asked, with smooth curves written as asked.", "quantifier": "all paths and all subpaths as_subpaths yields", "why_tests_cant": "Tests print a few subpaths and compare text; they do not cover all segment sequences and positions.", "anchors": ["svgio/path.py: Subpath.d, Path.svg_d, Path.as_subpaths, Path.parse"]}
{"id": "C85", "title": "The box of a subpath", "statement": "bbox() of a subpath is the smallest box around what its segments draw, None for an empty one.", "quantifier": "all paths of lines, curves and arcs, all subpaths, all positions on their segments", "why_tests_cant": "A box must contain a continuum of points and be minimal; tests sample points of chosen paths.", "anchors": ["svgio/path.py: Subpath.bbox, PathSegment.bbox, QuadraticBezier.bbox, CubicBezier.bbox, Arc.bbox"]}
{"id": "C86", "title": "The colour constructor combines positional arguments and keywords in a fixed order", "statement": "Color(...) starts from its positional arguments (a colour, text or number, optionally with an opacity; three or four channels) and then applies keywords. Of red/r, green/g, blue/b the short name counts, of alpha/opacity the opacity counts, and each number is saturated to its byte while channels not named keep their value; a packed rgba, else argb, else rgb replaces all of it. Channels cannot be set on the None colour: ValueError. Color(h=, s=, l=) should be the colour of that hue, saturation and lightness.", "quantifier": "all positional argument forms, all combinations of channel keywords with any rational values, all packed integers, all hues, saturations and lightnesses", "why_tests_cant": "The constructor takes seventeen optional keywords, so the combinations and the values of each are out of reach for examples; channel names given alone leave the colour invisible, and hue and saturation set one after another on black are lost, which tests of one keyword at a time do not show.", "anchors": ["svgio/basic.py: Color.__init__, Color.red, Color.green, Color.blue, Color.alpha, Color.opacity, Color.rgb, Color.argb, Color.hue, Color.saturation, Color.lightness"]}
{"id": "C87", "title": "A transform with lengths is the transform with each length resolved", "statement": "Matrix(text, ppi=, width=, height=, font_size=, viewbox=), equally Matrix.parse followed by render, gives the matrix of the transform list in which every distance (cm, mm, in, em, vw, vh, %) is replaced by its value in user units, whatever rotations, scalings and skews surround it; a percentage along x refers to the width and one along y to the height. Distances of one family of units are always accepted.", "quantifier": "all transform lists over all eleven functions in all spellings, all distances, all resolutions, font sizes, viewboxes, widths and heights", "why_tests_cant": "Lengths travel through matrix multiplication unresolved and are added across units on the way; which combinations meet depends on the whole list, so examples see only a few of them.", "anchors": ["svgio/basic.py: Matrix.__init__, Matrix.parse, Matrix.render, Matrix.matrix_multiply, Matrix.pre_translate, Matrix.pre_rotate, Length.__iadd__, Length.value", "svgio/constants.py: PATTERN_TRANSFORM_UNITS"]}
{"id": "C88", "title": "Every form of a position is as good as a Point in point arithmetic", "statement": "Point documents that it accepts complex numbers, pairs and plain numbers as positions. For any of these forms, standing for (u, v): p + o, o + p, p - o, o - p, p * o, p += o, p -= o, p *= o, p == o, Point(o), p.move_towards(o, t) and p.reflected_across(o) give what they give for Point(u, v); an operand that is no position is refused with TypeError and leaves the point unchanged; equality is total, and equal points have equal hashes.", "quantifier": "for all points and all operands (points, tuples and lists of any items, complex and real numbers, matrices, text, None)", "why_tests_cant": "The operators try one protocol after another, catching exceptions in between; which attempt answers depends on the type and content of the operand.", "anchors": ["svgio/basic.py: Point.__init__, __add__, __iadd__, __sub__, __isub__, __rsub__, __mul__, __imul__, __eq__, __ne__, __hash__, move_towards, reflected_across"]}
{"id": "C89", "title": "A point unpacks into its two coordinates and a matrix into its six numbers", "statement": "x, y = p and list(p) give the coordinates; p[i] = v changes the i-th coordinate and nothing else; other positions raise IndexError. The same for a matrix and a, b, c, d, e, f.", "quantifier": "for all points, matrices, positions and values", "why_tests_cant": "Iteration without __iter__ runs on until IndexError; tests look at the six valid positions only.", "anchors": ["svgio/basic.py: Point.__getitem__, __setitem__, __len__, Matrix.__getitem__, __setitem__, __len__"]}
{"id": "C90", "title": "Walking over the children of a node by first_child and next_sibling", "statement": "For every element p of a tree: first_child and last_child are the first and last of its children (None if it has none), has_child_nodes tells which, children are its children in order and child_element_count their number, parent_node of each child is p, owner_document is the document, is_connected is true. The loop `c = p.first_child; while c is not None: c = c.next_sibling` meets every child exactly once in document order and ends. is_equal_node and is_same_node compare nodes.", "quantifier": "all documents reached by any sequence of parses, builders, appends and node methods, and all nodes in them", "why_tests_cant": "The sibling properties search the parent's list with list.index, whose equality is that of nested lists; whether the walk ends depends on the shape of every pair of siblings, and a test with one child of each sort never sees the endless loop two leaves produce.", "anchors": ["svgio/nodes.py: Node.first_child, Node.last_child, Node.next_sibling, Node.previous_sibling, Node.has_child_nodes, Node.is_connected, Node.is_equal_node, Node.is_same_node, Node.parent_node, Node.owner_document, Element.children, Element.child_element_count"]}
{"id": "C91", "title": "The properties of elements read the attributes they are named for", "statement": "For every class of element and each of its properties (x, y, width, height, rx, ry, cx, cy, r, x1, y1, x2, y2, points, d, transform, stroke_width, stroke_opacity, fill_opacity, href, unit_type, ...): reading it gives the value of the attribute of that name found on the element or its nearest ancestor that has it, and otherwise the default of the class; id, viewBox and preserveAspectRatio are those of the element alone; href is xlink:href where there is one, else href. title and desc give the builder of such an element, and viewbox_transform of an svg element with a viewBox raises.", "quantifier": "all documents reached by any sequence of parses, builders and node methods, all elements, all properties in the table", "why_tests_cant": "The value depends on every ancestor and on the order in which their attributes are merged, and properties compete with element names in __getattribute__; tests look at one element with the attribute on it.", "anchors": ["svgio/nodes.py: Node.__getattribute__, Rect, Ellipse, Circle, Line, Polyline, Path, Text, Image, SVG, Use, Pattern, Mask, ClipPath, Script, Hyperlink properties, Document.get_values"]}
{"id": "C92", "title": "repr() text evaluates to an equal object", "statement": "For every point, length, colour, matrix, segment and subpath x, repr(x) is a Python expression built from the library's constructors, and eval(repr(x)) == x by the library's own equality: points within half of 1e-12 in each coordinate, matrices of numbers, colours exactly, lengths with the same unit and the amount to 12 decimals, segments and subpaths segment by segment.", "quantifier": "all points, all lengths with a unit of letters or %, all packed colours, all matrices of numbers, all segments without arcs, all subpaths of all paths", "why_tests_cant": "The text depends on decimal formatting of arbitrary numbers, sign, missing points and the number of segments; a test checks a few literal strings, not that every printed text parses and evaluates.", "anchors": ["svgio/basic.py: Length.__repr__, Color.__repr__, Point.__repr__, Matrix.__repr__, Length.str", "svgio/path.py: Move.__repr__, Close.__repr__, Line.__repr__, QuadraticBezier.__repr__, CubicBezier.__repr__, Subpath.__repr__, Path.__repr__"]}
{"id": "C93", "title": "The documented argument forms of Move and of the other segment constructors", "statement": "Move(p), Move(s, e), Move(p, start=s), Move(p, end=e) and Move(start=s, end=e) make a move with the documented start and end points, whatever flags (relative=, smooth=) are given besides; flags are those given, else absolute and smooth. Line and Close take start and end by position or by name alike.", "quantifier": "all points and all sets of flag keywords", "why_tests_cant": "The branches depend on the number of positional arguments and of keywords together; tests call each form once without flags.", "anchors": ["svgio/path.py: Move.__init__, Linear.__init__, PathSegment.__init__"]}
{"id": "C94", "title": "The regular expressions read exactly the notation they stand for", "statement": "Everything the library reads from text goes through the regular expressions of constants.py. At any place of any text the number pattern matches exactly when a decimal literal starts there, takes the longest such literal, and float() of what it took is the number the literal denotes. The readers of lengths, viewBoxes, points, transforms, colours, urls and path data, which apply these patterns with match and findall, give for every text what their notation prescribes, with the same groups and stopping at the same place.", "quantifier": "all texts, of any length and any characters (ASCII for classes such as \\s and \\d)", "why_tests_cant": "A backtracking pattern can prefer a shorter or another alternative at some text nobody tried; examples do not show that the first match found is the longest literal, or that separators and numbers never compete for the same characters.", "anchors": ["svgio/constants.py:REGEX_FLOAT", "svgio/constants.py:REGEX_LENGTH", "svgio/constants.py:REGEX_COORD_PAIR", "svgio/constants.py:REGEX_TRANSFORM_TEMPLATE", "svgio/constants.py:REGEX_TRANSFORM_PARAMETER", "svgio/constants.py:REGEX_COLOR_RGB", "svgio/constants.py:REGEX_IRI", "svgio/path.py:PathLexicalParser._number"]}
{"id": "C95", "title": "The font shorthand is read as CSS Fonts 3 says", "statement": "parse_font of a text of the form keywords, size, optional line height, families, generic family sets font_size to the size in px (em and percentages stay lengths), font_face to the families before the last comma, font_family to the generic family, and font_weight to the number the last weight keyword stands for, whatever the keywords and their order, whatever families, and whatever was set before.", "quantifier": "all lists of keywords, all sizes of digits with one of the five units, all family texts without a newline, any earlier state of the Text", "why_tests_cant": "The pattern repeats a choice of four groups that share the word normal, and takes the families with a greedy dot that has to give back characters; which group or comma wins for arbitrary families and keywords is a question about all backtracking paths.", "anchors": ["svgio/nodes.py:Text.parse_font", "svgio/nodes.py:Text.parse_font_weight", "svgio/constants.py:REGEX_CSS_FONT"]}
{"id": "C96", "title": "Operators on subpaths and segments keep their operands", "statement": "subpath + other, text + subpath, segment + subpath and segment + other are paths with the segments of the left operand followed by those of the right, connected; subpath * matrix has the transformed segments of the subpath, and subpath *= matrix changes exactly the segments of the subpath in the backing path.", "quantifier": "all paths, all windows on them, all segments, all path data, all effects of a matrix on a segment", "why_tests_cant": "Whether an operator loses or drags along segments depends on which constructor case a value of each class meets and on where the window lies in a path of any length.", "anchors": ["svgio/path.py: Subpath.__copy__, Subpath.__iadd__, Subpath.__add__, Subpath.__radd__, Subpath.__imul__, Subpath.__mul__, PathSegment.__iadd__, PathSegment.__add__, Path.__init__"]}
{"id": "C97", "title": "Angles, parameters and points of an arc convert into each other", "statement": "point_at_angle(x) is the one point of the arc's ellipse on the ray from its centre at the angle x; angle_at_point of it is x up to whole turns; point_at_t(t_at_point(p)) is p for every p on the ellipse and otherwise the point of the ellipse in the direction of p; t_at_point(point_at_t(t)) is t up to whole turns.", "quantifier": "all arcs with positive radii, any rotation, all angles, all parameters, all points but the centre", "why_tests_cant": "The quadrant is repaired after atan2 from the remainder of an absolute value; whether the right half of the ellipse is chosen for every angle, sign and number of turns is a statement about all reals.", "anchors": ["svgio/path.py: Arc.point_at_angle, Arc.angle_at_point, Arc.t_at_point, Arc.point_at_t, Arc.get_rotation"]}
{"id": "C98", "title": "A segment and its points belong to one place of one path", "statement": "Whatever program makes and edits paths with the constructors, drawing methods, append, insert, item and slice assignment and deletion, extend, +=, validate, direct_close, reverse and *=, with segments made for the purpose: every segment object is at one place of one path and every point object in one place of one segment, as the Path class documents; so a statement changes the path it names and no other, and each path is at all times the list of values its own edits give. Segments taken from a path and given to another are copied, so that the paths stay independent.", "quantifier": "all programs of any length over any number of paths, all segments without arcs for scaling, all indices and slices, all matrices", "why_tests_cant": "Aliasing shows only when some later statement changes an object through another reference; tests look at the value returned by one call, not at which objects are the same after every sequence of edits.", "anchors": ["svgio/path.py: Path.__init__, Path.append, Path.insert, Path.extend, Path.__setitem__, Path.__delitem__, Path.__iadd__, Path.validate_connections, Path.direct_close, Path.reverse, Subpath.reverse, Subpath.__imul__, PathSegment.reverse, PathSegment.__imul__"]}
{"id": "C99", "title": "The geometry of a path or line element is that of its attributes", "statement": "segments() of a path element found in any document is SVG's drawing of the path data the element has, and bbox() is the smallest box around what is drawn: no point of any line, curve or elliptical arc lies outside, and each side is touched. Without path data there are no segments and bbox() is None. With transformed=True the transform attribute is applied. bbox() of a line element is that of the line, or of its image; d() of any shape prints its outline.", "quantifier": "all histories of documents, all elements, all path data accepted by SVG's grammar, all parameters t in [0,1], all transforms", "why_tests_cant": "The box has to hold for the infinitely many points of each curve and arc of arbitrary path data in arbitrary documents; tests compare boxes of a few shapes.", "anchors": ["svgio/nodes.py: Path.d, Path.segments, Shape.d, Shape.bbox, Line.segments", "svgio/path.py: PathSegment.bbox, QuadraticBezier.bbox, CubicBezier.bbox, Arc.bbox, Path.__init__"]}
{"id": "C100", "title": "Points and boxes of curves in binary floating point", "statement": "With binary64 floats, every computed point of a line, quadratic or cubic Bezier curve at t in [0,1] is the point of the curve up to about 2^-46 times the size of the coordinates; at t = 0 and t = 1 it is exactly the start and the end; the computed box of a line or quadratic curve has the whole curve up to that error and no side of it is farther than that from the curve; computed points lie in the computed box.", "quantifier": "all finite control points up to 2^1000, all floats t in [0,1], with and without numpy, any ** that is right to two units in the last place", "why_tests_cant": "Rounding, underflow and overflow behave differently for every combination of exponents; tests compare with a tolerance for a few values", "anchors": ["svgio/path.py:Line.npoint", "svgio/path.py:QuadraticBezier.npoint", "svgio/path.py:QuadraticBezier.bbox", "svgio/path.py:CubicBezier.npoint", "svgio/basic.py:Point.towards"]}
{"id": "C101", "title": "Matrices in binary floating point", "statement": "Applying a matrix to a point is right up to about 2^-49 times the size of the terms added, and exact for integers below 2^53; the product of two matrices maps a point as the two do one after the other (exactly, for integers up to 65536); applying a matrix and its inverse leads back to an equal point.", "quantifier": "all finite matrices and points", "why_tests_cant": "Rounding errors depend on all of the bits of six entries and two coordinates", "anchors": ["svgio/basic.py:Matrix.point_in_matrix_space", "svgio/basic.py:Matrix.matrix_multiply", "svgio/basic.py:Matrix.inverse"]}
{"id": "C102", "title": "Tolerance of point equality in binary floating point", "statement": "Points whose coordinates are at least 8192 in size are equal exactly when their coordinates are the same floats; in general points are equal when they are at most 1e-12 apart on both axes, up to a relative error of 1e-12 of that bound; below 8192 this includes different floats.", "quantifier": "all finite points", "why_tests_cant": "Whether the tolerance has any effect depends on the spacing of floats, which tests near the origin do not see", "anchors": ["svgio/basic.py:Point.__eq__", "svgio/constants.py:ERROR"]}
{"id": "C103", "title": "Relative commands in binary floating point", "statement": "After n relative steps the current point is where the steps lead, up to 2n(2^-53 M + 2^-1075), where M bounds the places on the way; with integer steps there is no error at all.", "quantifier": "all sequences of finite relative steps", "why_tests_cant": "The error accumulates over the whole path; a test has one path", "anchors": ["svgio/path.py:SVGLexicalParser._rcoord", "svgio/path.py:Path.line", "svgio/path.py:Path.current_point"]}
{"id": "C104", "title": "Opacity and alpha in binary floating point", "statement": "Reading opacity and setting it again keeps alpha, Color(r, g, b, a) has alpha a, and setting an opacity in [0,1] keeps it to within half of 1/255.", "quantifier": "all alphas from 0 to 255, all floats in [0,1]", "why_tests_cant": "The product opacity * 255.0 is rounded before it is rounded to an integer", "anchors": ["svgio/basic.py:Color.opacity", "svgio/basic.py:Color.rgb_to_int", "svgio/basic.py:Color.__init__"]}
{"id": "C105", "title": "Arcs turned into curves draw nearly the same", "statement": "approximate_arcs_with_cubics and approximate_arcs_with_quads change what a path draws only a little: every point drawn by the new path is close to one drawn by the old path and the other way round, the distance being bounded by the largest radius times a factor that depends on error only. With the default error this is 1/63000 of the radius for cubics and 1/135 for quadratics. The same holds of parsed path data and SVG's drawing of them.", "quantifier": "all connected paths with any number of proper arcs; all errors below a half (cubics) or up to a sixth (quadratics); all path data", "why_tests_cant": "A maximum distance between continuous curves, for arbitrary arcs and any number of them.", "anchors": ["svgio/path.py: Path.approximate_arcs_with_cubics, Path.approximate_arcs_with_quads, Arc.as_cubic_curves, Arc.as_quad_curves, Path.parse"]}
{"id": "C106", "title": "Positions along a path survive rounding", "statement": "In binary floating point, Path.point(t) for 0 < t < 1 takes a place on a segment whose distance along the path is the fraction t of the whole length, up to a few rounding errors per segment; it never raises ZeroDivisionError and never picks a segment without length. Up to 0 it is the start and from 1 on the end.", "quantifier": "all numbers of segments up to 2^40, all lengths that are finite and not negative with a positive sum, all positions", "why_tests_cant": "Rounding errors add up over any number of segments, and the last accumulated fraction can stay below 1; only a handful of positions in 2^53 show it.", "anchors": ["svgio/path.py: Path.point, Path._calc_lengths"]}
{"id": "C107", "title": "Angles survive rounding", "statement": "In binary floating point, as Angle computes: degrees, gradians and turns give the radians they stand for up to three rounding errors, the properties that read them back give the true number up to three and what was given up to five; as_positive_degrees ends with a number that is not negative and differs from the angle's degrees by a multiple of 360, up to one rounding; normalized is between zero and a full turn and points the same way; == holds for directions that differ by less than 1e-11, wherever they are, and only for those, up to rounding; is_orthogonal holds for multiples of a right angle given in degrees.", "quantifier": "all finite angles that are not tiny or huge, any number of turns", "why_tests_cant": "Floats have 2^64 values; whether a loop that adds 360.0 ends and what rounding leaves of whole turns is a matter of single bit patterns far from those in tests.", "anchors": ["svgio/basic.py: Angle.degrees, Angle.gradians, Angle.turns, Angle.as_degrees, Angle.as_gradians, Angle.as_turns, Angle.as_positive_degrees, Angle.normalized, Angle.__eq__, Angle.is_orthogonal"]}
{"id": "C108", "title": "Colours survive rounding", "statement": "In binary floating point, as Color computes: hue, saturation and lightness are those of CSS for the colour's channels up to 1e-8 degrees and 1e-11; setting them again gives the same colour; blending with over gives the exactly computed channels and alpha; a percentage in rgb() gives the nearest byte; hsl() gives the channels of CSS with the decimals dropped, up to rounding.", "quantifier": "all colour values; all pairs of colours; all percentages; hues of -240 to 600 degrees, all finite saturations, lightnesses and opacities", "why_tests_cant": "There are 2^32 colours and 2^64 pairs; a channel that is rounded to just below a whole number loses one when it is cut.", "anchors": ["svgio/basic.py: Color.hue, Color.saturation, Color.lightness, Color.hsl_to_int, Color.rgb_to_int, Color.over, Color.parse_color_rgbp, Color.parse_color_hsl"]}
{"id": "C109", "title": "The viewBox attribute is read as SVG writes it", "statement": "Viewbox(text) of four numbers in SVG's notation (signs, fractions, exponents; white space and commas between them, white space around) holds exactly those numbers; of fewer than four it has no transform. Viewbox of an element's attributes is Viewbox of its viewBox and preserveAspectRatio, Viewbox of a Viewbox is a copy. For any such viewBox of positive size, any preserveAspectRatio of SVG and any viewport, the transform text, read as a Matrix, fits the viewBox into the viewport (meet) or covers it (slice), scaled uniformly until one side coincides, aligned on each axis as named. Text that is not four numbers gives no transform.", "quantifier": "all viewBox texts in the grammar, all preserveAspectRatio values, all viewports", "why_tests_cant": "The attribute is free text; tests try a handful of spellings, and the chain from two attribute texts through a printed transform to a matrix has infinitely many inputs.", "anchors": ["svgio/basic.py:Viewbox.__init__", "svgio/basic.py:Viewbox.set_viewbox", "svgio/basic.py:Viewbox.property_by_values", "svgio/basic.py:Viewbox.property_by_object", "svgio/basic.py:Viewbox.viewbox_transform"]}
{"id": "C110", "title": "A viewBox is fitted within rounding in floating point", "statement": "For viewports and viewBoxes with sizes between 2^-100 and 2^100 and coordinates up to 2^100 in size, the text viewbox_transform returns, computed in binary64, reads as a matrix that puts every point where SVG's rule puts it (meet, slice, none, all nine alignments), but for 20 roundings of the sizes involved and half a unit in the 12th printed decimal. A viewBox equal to the viewport gives no transform at all, for any finite numbers and any preserveAspectRatio. A viewBox that meets its viewport lies inside it. Equal origins and proportions give a scale alone.", "quantifier": "all binary64 viewports and viewBoxes in range, all preserveAspectRatio values", "why_tests_cant": "The result is a printed text of computed floats; that its error stays proportional to the sizes, whatever cancels, cannot be sampled, and a test with round numbers never rounds.", "anchors": ["svgio/basic.py:Viewbox.viewbox_transform"]}
{"id": "C111", "title": "Numbers written in floating point settle", "statement": "Length.str of any finite binary64 number, read by float(), gives a float at most 1e-12 away, the same one from 8192 on, and Length.str of that is the same text; so writing, reading and writing again changes nothing. Hence for Length with a unit and for the four numbers of a Viewbox. Numbers read from at most 12 decimals, up to 4096, are read back as the same float. Points are written and read back with eleven significant digits right, and written the same again. Every number is read back as the same float. Every point is read back near itself.", "quantifier": "all finite binary64 numbers", "why_tests_cant": "Whether two roundings, to decimals and back to binary, are stable depends on each of 2^64 numbers.", "anchors": ["svgio/basic.py: Length.str", "svgio/basic.py: Length.__init__", "svgio/basic.py: Length.__str__", "svgio/basic.py: Point.__str__", "svgio/basic.py: Point.__init__", "svgio/basic.py: Viewbox.__str__"]}
{"id": "C112", "title": "Path data settles and hardly drifts in floating point", "statement": "With 64-bit floats, printing a path (Path.d with relative=False and smooth=False), reading the text and printing again gives the same text, and every point keeps eleven significant digits. Printed with relative=True and read, the k-th segment's points are within k+1 units of the eleventh digit of the size of the drawing. Reading path data of up to a million instructions without arcs puts every end point within 4(k+1) roundings of the size of the drawing of where SVG says it is, k being its number, and every control point within 8(k+1)^2. Relative instructions that lead back to the start end exactly there.", "quantifier": "Every path that begins with a move, of moves, lines, quadratic and cubic curves and closes, with coordinates printed without an exponent or with one that does not end in 0; every spelling of path data without arcs whose drawing fits 2^-900 to 2^900.", "why_tests_cant": "Error analysis over all drawings: tests compare a few coordinates with a tolerance, and neither see texts that keep changing when saved again, nor how errors of relative and smooth instructions add up.", "anchors": ["svgio/path.py:Path.parse", "svgio/path.py:Path.svg_d", "svgio/path.py:PathLexicalParser.parse", "svgio/basic.py:Point.__str__", "svgio/basic.py:Point.reflected_across"]}
{"id": "C113", "title": "Lengths keep their meaning in floating point", "statement": "With 64-bit floats, value() of a Length is within 4 roundings of amount times the size of its unit, and the Length itself if that size is not known. Sums are within one rounding of the sum and three of the length converted; units that do not compare raise ValueError. Lengths of the same unit compare as their amounts, always; of different units if they differ by more than three roundings. to_mm, to_cm and to_inch are within 1e-12 and 7 roundings of the exact length, and converting again at whatever resolution changes nothing up to 599 units; lengths of at most 12 decimals up to 600 in the unit asked for are returned as they are. a < b and b > a always agree. to_mm of a length in mm always returns it.", "quantifier": "All units, and all finite amounts, resolutions, font sizes, viewboxes that are 0 or between 2^-300 and 2^300; for comparisons in the same unit all finite amounts.", "why_tests_cant": "Error analysis over all numbers and pairs of units; tests try a few and compare with a tolerance.", "anchors": ["svgio/basic.py:Length.value", "svgio/basic.py:Length.__iadd__", "svgio/basic.py:Length.__lt__", "svgio/basic.py:Length.to_mm", "svgio/basic.py:Length.to_cm", "svgio/basic.py:Length.to_inch"]}
{"id": "C114", "title": "Transforms are read within rounding in floating point", "statement": "With 64-bit floats, the matrix read from a transform list puts every point where SVG puts it over the real numbers, but for 30 roundings for each rounding counted, relative to how far the functions can lead the point when all signs add up: 1 per function, 3 for a rotation about a point, and besides the size of each angle, in radians, times 1+|tan| for a skew. A list of matrices, translations and scales by whole numbers gives exactly the matrix it denotes as long as the product of the sizes stays below 2^53. Whether a text is read or raises an exception, and which one, does not depend on rounding.", "quantifier": "All transform lists of any length whose numbers are 0 or between 2^-300 and 2^300 in size, at most 2^48 roundings, all points, any cos, sin and tan within four roundings; for the last sentence any text.", "why_tests_cant": "How errors accumulate along a list of any length, through products of matrices that can cancel, is not settled by examples.", "anchors": ["svgio/basic.py: Matrix.parse", "svgio/basic.py: Matrix.matrix_multiply", "svgio/basic.py: Angle.parse", "svgio/basic.py: Matrix.pre_rotate"]}
{"id": "C115", "title": "The drawing methods append what they are called with", "statement": "path.line, quad, cubic, smooth_quad, smooth_cubic and arc called with any number of points append one segment per point, pair, triple or six arguments, each starting where the one before ended, from the current point on, and change nothing that was there. 'z' stands for the start of the subpath. Each smooth curve takes as first control point the reflection of the last one of the curve before, the current point after anything else. path.move draws a move and then lines, and 'z' then is where the move went. vertical and horizontal draw lines along one axis to the positions given, or with relative=True by the distances. When arguments run out within a group, the complete groups are drawn and IndexError is raised. relative=True marks every segment added as relative, for printing. An arc whose ends are apart and whose radii are not zero needs both radii and the rotation, else TypeError; missing flags are false. first_point is where the first segment starts, or ends if it has no start.", "quantifier": "all paths with a current point, all lists of arguments of any length, with the flag or without", "why_tests_cant": "The methods call themselves with the rest of the arguments, so the number of calls is unbounded and the state they depend on (current point, last control point, start of the subpath) changes at each; tests call them with one or two points.", "anchors": ["svgio/path.py:Path.move", "svgio/path.py:Path.line", "svgio/path.py:Path.vertical", "svgio/path.py:Path.horizontal", "svgio/path.py:Path.smooth_quad", "svgio/path.py:Path.quad", "svgio/path.py:Path.smooth_cubic", "svgio/path.py:Path.cubic", "svgio/path.py:Path.arc", "svgio/path.py:Path.first_point"]}
{"id": "C116", "title": "Multiplying by a matrix transforms", "statement": "With m a Matrix and x a Matrix or transform text: m * x, m @ x, m *= x and m @= x are the matrix that first applies m and then x. segment * x and segment *= x move every point of the segment, and text * segment does the same as segment * text. path * x, path @ x, path *= x and element * x, element *= x transform the path or the element in the same way. Anything that is not a transform is refused with TypeError and nothing is changed.", "quantifier": "all matrices, all well-formed transform texts, all segments but arcs, all paths and elements", "why_tests_cant": "Which method runs is decided by Python's operator protocol (left operand, NotImplemented, right operand, order of resolution of the class); a test of one pair of operand types says nothing of the others, and the result is a map of the whole plane.", "anchors": ["svgio/basic.py:Matrix.__matmul__", "svgio/basic.py:Matrix.__rmatmul__", "svgio/basic.py:Matrix.__imatmul__", "svgio/path.py:PathSegment.__mul__", "svgio/path.py:Path.__matmul__", "svgio/path.py:Path.__imatmul__", "svgio/nodes.py:Transformable.__mul__", "svgio/nodes.py:Transformable.__imul__"]}
{"id": "C117", "title": "Distances and lengths of polylines survive rounding", "statement": "Point.distance(p, q), which is also the length of a line, is a number that is not negative, differs from Euclid's distance by at most 4 roundings (4 * 2^-53 of it, plus 2^-535), is the same bit for bit in both directions, is 0 for equal points and not 0 for points 2^-534 apart. For horizontal and vertical lines it is the rounded difference itself, and for whole coordinates a whole distance is exact. path.length() of n lines is the length of the polyline but for 2n+7 roundings, and never shrinks when a line is added. Outside of this range the distance can be infinite or 0.", "quantifier": "all binary64 points with coordinates up to 2^500, all polylines of less than 2^40 lines", "why_tests_cant": "the errors of squaring and of the root are relative to the numbers; tests with a tolerance show neither the bound nor that axis-parallel lengths are exact, and a sum over many lines only drifts with many lines", "anchors": ["svgio/basic.py: Point.distance", "svgio/path.py: Linear.length, PathSegment.length, Path.length, Path._calc_lengths"]}
{"id": "C118", "title": "path.point walks the given part of a polyline, rounding included", "statement": "For a path of a move and n lines, path.point(t) with 0 < t < 1 is the place reached when t times the length is walked along the lines from the beginning: the distance is right but for 8n+26 roundings of the length, and the point at it but for 2^-46 of the coordinates. For t up to 0 it is the point of the move, for t = 1 the last point. It never fails and never lands outside of the lines.", "quantifier": "all binary64 points with coordinates up to 2^500, all polylines of less than 2^40 lines with a length of 2^-400 or more, all t, with and without numpy", "why_tests_cant": "the fractions of the length, their running sum, the quotient and the interpolation are all rounded; which line is chosen depends on the last bit, and tests only see a few t", "anchors": ["svgio/path.py: Path.point, Path._calc_lengths, Linear.npoint, Linear.length", "svgio/basic.py: Point.distance, Point.towards"]}
{"id": "C119", "title": "Orientation and convex hull as they are really computed", "statement": "With coordinates in double precision Point.orientation tells left, right and straight apart exactly for whole coordinates up to 2^25, and tells left from right whenever twice the area of the triangle exceeds 2^-48 of the square of the largest coordinate. Under the same conditions on all triples of points convex_hull ends after at most as many rounds as there are points, and returns vertices of the input, none twice, forming a convex polygon with every other point strictly inside all its sides; without them it need not end: for (0, 0.3), (0.2, 0.9), (0.3, 1.2) it does not.", "quantifier": "all finite sets of points with binary64 coordinates up to 2^500, all numbers of rounds", "why_tests_cant": "A rounding error in one of the cubically many orientations can make the walk miss its starting point; which triples are hit depends on the last bits of the coordinates.", "anchors": ["svgio/basic.py: Point.orientation, Point.convex_hull"]}
{"id": "C120", "title": "closest_segment_point in floating point", "statement": "For a line whose ends are at least 2^-400 apart, with all coordinates at most M <= 2^500, closest_segment_point(p) is a point that differs from the closest point of the line by at most 2^-46*M + 2^-1068 in each coordinate, so that no point of the line is closer to p by more than twice that; with numpy it is never outside the box of the line. Asked for the start it gives the start, and with numpy asked for the end it gives the end, exactly.", "quantifier": "for all ends and points of binary64 floats, however nearly they are on a line, behind an end, or close together", "why_tests_cant": "Whether the quotient of two rounded sums is close to the projection depends on the ratio of the distances of the points, which no choice of examples exhausts; tests see round numbers for which nothing is rounded.", "anchors": ["svgio/path.py: Linear.closest_segment_point", "svgio/path.py: Linear.point", "svgio/basic.py: Point.towards"]}
{"id": "C121", "title": "The geometry of round shapes", "statement": "The methods of ellipses and circles agree with each other: point_at_t and point run along the ellipse, unit_matrix maps the unit circle onto it, point_at_angle is the one point of the ellipse in that direction from the centre, t_at_point undoes point_at_t, arc_t(t0, t1) and arc_angle(a0, a1) are the pieces of the ellipse between the points they name, in the direction asked for and by default the shorter way, and _ramanujan_length lies between the circumferences of the inner and the outer circle and is exact for circles.", "quantifier": "for all positive radii, rotations, centres, parameters, angles, points and directions", "why_tests_cant": "All reals, and all quadrants with the branch of the arctangent that belongs to each; tests can try only some angles and none of them where the quadrants meet.", "anchors": ["svgio/nodes.py: _RoundShape.unit_matrix, arc_t, arc_angle, point_at_angle, angle_at_point, t_at_point, point_at_t, point, _ramanujan_length", "svgio/nodes.py: Ellipse", "svgio/nodes.py: Circle", "svgio/path.py: Arc.__init__"]}
{"id": "C122", "title": "The data, the file and the box of an image", "statement": "The data of an Image whose href holds a picture as a data URL of kind png, jpg, jpeg or svg+xml is what the part behind the comma encodes in base64, and None for other texts; load opens that picture, or the file that href names, there or in the given directory, and without PIL does nothing; bbox is the least box with sides along the axes of the picture as its transform puts it, and of the plain picture with transformed=False.", "quantifier": "for every href, payload, directory and outcome of opening; every width, height and transform, a Matrix or its text", "why_tests_cant": "Whether a box holds every point of the turned and skewed picture, and is the least, is a claim about infinitely many points and matrices; that no call of load can succeed is a claim about every image and file system.", "anchors": ["svgio/nodes.py: Image.data", "svgio/nodes.py: Image.load", "svgio/nodes.py: Image.load_data", "svgio/nodes.py: Image.load_file", "svgio/nodes.py: Image.bbox"]}
{"id": "C123", "title": "What repr() of an element says", "statement": "repr() of an element is the name of its class and, in parentheses, each attribute as key=value in order; two elements that print alike are of the same class and have the same attributes.", "quantifier": "for every element, class and dict of attributes", "why_tests_cant": "That no two different elements print alike ranges over all pairs of attribute dicts; single examples show neither that nor that every Text raises.", "anchors": ["svgio/nodes.py: Node.__repr__", "svgio/nodes.py: Text.__repr__", "svgio/nodes.py: Image.__init__"]}
{"id": "C124", "title": "What Document.write writes can be read", "statement": "The file that Document.write writes is an XML document that holds the elements of the document, so that Document.read of it gives the same tree.", "quantifier": "for every document that can be made by reading and building, every file read before, every setting of the document", "why_tests_cant": "That no file ever written can be read is a claim about all documents; a test would find one file, and the one it finds depends on the serialiser.", "anchors": ["svgio/nodes.py: Document.write", "svgio/nodes.py: Document.__str__", "svgio/nodes.py: Node.__str__", "svgio/nodes.py: Text.__str__"]}
{"id": "C125", "title": "The ellipse of an arc", "statement": "is_circular of an Arc says whether all points of its ellipse are equally far from the centre, radius holds the distances of the two axis points from the centre, and get_ellipse gives the Ellipse with the centre and radii of the arc.", "quantifier": "for every arc", "why_tests_cant": "Being equally far from the centre is a claim about every point of the ellipse, and it ranges over all arcs; the wrong binding of the arguments shows only if the name is known.", "anchors": ["svgio/path.py: Arc.is_circular", "svgio/path.py: Arc.radius", "svgio/path.py: Arc.get_ellipse", "svgio/nodes.py: Ellipse.__init__"]}
{"id": "C126", "title": "Colour distance ranks colours as redmean does", "statement": "Color.distance_sq is the square of the redmean distance that its documentation names, rounded down, so that of two colours the nearer by redmean is the nearer by distance; and distance is a metric.", "quantifier": "for all pairs and triples of colours", "why_tests_cant": "There are 2^72 triples; the wrong ranking shows only for pairs that differ in green or red and are compared with pairs that differ in blue.", "anchors": ["svgio/basic.py: Color.distance", "svgio/basic.py: Color.distance_sq", "svgio/basic.py: Color.distance_to"]}
{"id": "C127", "title": "The summed length of an arc is close to its length", "statement": "_integral_length of an Arc differs from the length of the arc by at most sweep squared times the larger radius over the number of steps, and not at all for a circle.", "quantifier": "for every arc with positive radii, either direction of sweep, every number of steps", "why_tests_cant": "The length of an ellipse has no closed form to compare with, and the bound ranges over all radii, start angles and sweeps.", "anchors": ["svgio/path.py: Arc._integral_length"]}

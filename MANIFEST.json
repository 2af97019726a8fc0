{
 "claims": [
  {
   "property": "C01",
   "status": "proved",
   "theorems": [
    "color_text_roundtrip",
    "color_text_channels",
    "color_none_text_refuted"
   ],
   "note": "The None colour, outside the property, prints as \"None\" which reads back as black."
  },
  {
   "property": "C02",
   "status": "proved",
   "theorems": [
    "color_set_red",
    "color_set_green",
    "color_set_blue",
    "color_set_alpha",
    "color_set_opacity",
    "color_get_opacity"
   ],
   "note": ""
  },
  {
   "property": "C03",
   "status": "proved",
   "theorems": [
    "color_css_hex"
   ],
   "note": ""
  },
  {
   "property": "C04",
   "status": "proved",
   "theorems": [
    "color_argb_write_read",
    "color_argb_rebuilds",
    "color_rgb_write_read",
    "color_rgb_channels"
   ],
   "note": ""
  },
  {
   "property": "C05",
   "status": "proved",
   "theorems": [
    "color_eq_equivalence",
    "color_eq_sees_channels",
    "color_eq_none"
   ],
   "note": ""
  },
  {
   "property": "C06",
   "status": "partial",
   "theorems": [
    "color_keywords_partial",
    "color_unknown_word_black",
    "color_keywords_refuted"
   ],
   "note": "Every keyword but aliceblue follows the table; aliceblue is refuted (basic.py:687 shadows the right branch)."
  },
  {
   "property": "C07",
   "status": "partial",
   "theorems": [
    "color_rgb_notation_partial",
    "color_rgb_percent_notation",
    "color_rgb_decimal_refuted"
   ],
   "note": "Integers and percentages proved; decimal numbers such as rgb(1.5,2,3) raise ValueError."
  },
  {
   "property": "C08",
   "status": "proved",
   "theorems": [
    "color_over_porter_duff",
    "color_over_between",
    "color_over_text_refuted"
   ],
   "note": "Proved for colour and integer arguments; text arguments raise AttributeError."
  },
  {
   "property": "C09",
   "status": "partial",
   "theorems": [
    "color_distance_partial",
    "color_distance_zero_close",
    "color_distance_zero_refuted"
   ],
   "note": "Zero only for equal colours is refuted."
  },
  {
   "property": "C10",
   "status": "partial",
   "theorems": [
    "color_hsl_roundtrip_partial",
    "color_hsl_writeback_refuted"
   ],
   "note": "Conversion inverts exactly with the hue in turns; writing back a just-read property is refuted. Rounding is treated in C108."
  },
  {
   "property": "C11",
   "status": "proved",
   "theorems": [
    "color_hsl_text_range",
    "color_hsl_text_css",
    "color_hsl_wrap_refuted"
   ],
   "note": "The stated range claims hold for every hue; the CSS formula holds for hues in [-240,600] degrees and is refuted beyond."
  },
  {
   "property": "C12",
   "status": "partial",
   "theorems": [
    "color_distinct_injective_partial",
    "color_distinct_low_root_refuted"
   ],
   "note": "Conditional on the floating-point cube root being exact; shown to fail where it rounds down."
  },
  {
   "property": "C13",
   "status": "proved",
   "theorems": [
    "length_text_roundtrip",
    "length_text_near",
    "length_text_reads"
   ],
   "note": ""
  },
  {
   "property": "C14",
   "status": "partial",
   "theorems": [
    "length_value_css_partial",
    "length_value_css_near",
    "length_float",
    "length_value_vminmax_partial",
    "length_value_percent_of_length",
    "length_value_percent_of_text",
    "length_value_pt_refuted",
    "length_value_vmin_refuted",
    "length_value_vmax_refuted",
    "length_value_percent_percent_refuted"
   ],
   "note": "Exact for most units; pt/cm/mm within 1/40000; vmin/vmax and percent of percent refuted."
  },
  {
   "property": "C15",
   "status": "partial",
   "theorems": [
    "length_value_symbolic_partial",
    "length_value_unknown_unit_refuted"
   ],
   "note": "Holds for every unit the code knows; unknown units resolve as px."
  },
  {
   "property": "C16",
   "status": "partial",
   "theorems": [
    "length_eq_reflexive",
    "length_eq_partial",
    "length_eq_refuted",
    "length_eq_always_true",
    "length_eq_symmetric_refuted",
    "length_eq_number_refuted",
    "length_eq_number"
   ],
   "note": "Refuted: lengths in px, pt, pc, mm, cm, in equal everything; correct for the other units."
  },
  {
   "property": "C17",
   "status": "partial",
   "theorems": [
    "length_order_partial",
    "length_lt_irreflexive",
    "length_lt_transitive_partial",
    "length_lt_transitive_refuted"
   ],
   "note": "Holds unless pt and pc are mixed; refuted for that mix."
  },
  {
   "property": "C18",
   "status": "partial",
   "theorems": [
    "length_add_value_partial",
    "length_sub_value_partial",
    "length_rsub_value_partial",
    "length_add_sub_partial",
    "length_add_defined",
    "length_add_pt_pc_refuted"
   ],
   "note": "Holds unless pt and pc are mixed; refuted for that mix."
  },
  {
   "property": "C19",
   "status": "partial",
   "theorems": [
    "length_scale_value",
    "length_mul_div",
    "length_ratio_partial",
    "length_ratio_zero",
    "length_ratio_incompatible",
    "length_ratio_pt_pc_refuted"
   ],
   "note": "Holds unless pt and pc are mixed; refuted for that mix."
  },
  {
   "property": "C20",
   "status": "proved",
   "theorems": [
    "angle_units_convert",
    "angle_units_roundtrip",
    "angle_text_units"
   ],
   "note": ""
  },
  {
   "property": "C21",
   "status": "proved",
   "theorems": [
    "angle_positive_degrees",
    "angle_positive_degrees_upper_refuted",
    "angle_normalized",
    "angle_orthogonal"
   ],
   "note": "The stronger reading (always below 360) is refuted: the loop does not reduce angles of a whole turn or more. On real numbers; with rounding the loop need not end, see C107."
  },
  {
   "property": "C22",
   "status": "proved",
   "theorems": [
    "point_ring",
    "point_operands",
    "point_abs"
   ],
   "note": ""
  },
  {
   "property": "C23",
   "status": "proved",
   "theorems": [
    "point_reflection"
   ],
   "note": ""
  },
  {
   "property": "C24",
   "status": "proved",
   "theorems": [
    "point_towards",
    "point_distance_metric",
    "point_polar_distance",
    "point_polar_angle",
    "point_angle_range"
   ],
   "note": ""
  },
  {
   "property": "C25",
   "status": "partial",
   "theorems": [
    "hull_encloses_partial",
    "hull_encloses_refuted",
    "hull_ends",
    "hull_around_partial"
   ],
   "note": "Termination and that the vertices are among the points are proved for all finite sets. Enclosing is proved where only one point is leftmost and no two others are on a line with it, strictly where no three are on a line; refuted otherwise, and what is left out is then below the first vertex or beyond the first side."
  },
  {
   "property": "C26",
   "status": "partial",
   "theorems": [
    "format_G_reads_back",
    "point_text_pair",
    "point_str_reads_back_partial",
    "point_str_exponent_refuted",
    "point_text_no_number"
   ],
   "note": "Not proved, and refuted by witness, for magnitudes printed with an exponent that ends in the digit 0."
  },
  {
   "property": "C27",
   "status": "proved",
   "theorems": [
    "matrix_monoid",
    "matrix_action",
    "matrix_faithful"
   ],
   "note": ""
  },
  {
   "property": "C28",
   "status": "proved",
   "theorems": [
    "matrix_inverse",
    "matrix_singular",
    "matrix_point_in_inverse_space"
   ],
   "note": ""
  },
  {
   "property": "C29",
   "status": "proved",
   "theorems": [
    "matrix_post_ops",
    "matrix_pre_ops",
    "matrix_axis_ops",
    "matrix_centre_fixed",
    "matrix_constructors",
    "matrix_of_numbers"
   ],
   "note": ""
  },
  {
   "property": "C30",
   "status": "partial",
   "theorems": [
    "transform_list_denotes",
    "transform_concat",
    "transform_into",
    "transform_skew_one_refuted"
   ],
   "note": "Proved for user-unit, px and pc lengths (other lengths: C87); CSS skew() with one angle is refuted."
  },
  {
   "property": "C31",
   "status": "proved",
   "theorems": [
    "matrix_rotation_rigid",
    "matrix_det_area",
    "matrix_det_mul",
    "matrix_vector"
   ],
   "note": ""
  },
  {
   "property": "C32",
   "status": "partial",
   "theorems": [
    "viewbox_meet_fits",
    "viewbox_slice_covers",
    "viewbox_none_stretches",
    "viewbox_zero_raises",
    "viewbox_spaces_refuted"
   ],
   "note": "Refuted for preserveAspectRatio text with more than one space, and zero-sized viewboxes raise; proved for all others."
  },
  {
   "property": "C33",
   "status": "proved",
   "theorems": [
    "viewbox_text_matrix"
   ],
   "note": ""
  },
  {
   "property": "C34",
   "status": "proved",
   "theorems": [
    "path_parse_ends",
    "path_parse_foreign",
    "path_parse_appends",
    "path_parse_keeps",
    "path_separators"
   ],
   "note": "Termination: the fuel bound is never reached for any string and path. A character outside the path data alphabet ends the reading like the end of the string; recognised instructions are kept whatever follows. path_separators: text behind the point where neither a command nor a number can be read does not matter."
  },
  {
   "property": "C35",
   "status": "proved",
   "theorems": [
    "path_parse_connected",
    "path_parse_connected_onto"
   ],
   "note": "All strings, well formed or not, also when the parse ends with an exception."
  },
  {
   "property": "C36",
   "status": "proved",
   "theorems": [
    "path_relative_absolute",
    "path_parse_svg_lenient"
   ],
   "note": "Path data that begins with a move, numbers exact."
  },
  {
   "property": "C37",
   "status": "proved",
   "theorems": [
    "path_implicit_repetition"
   ],
   "note": "Any path drawn on, any instructions."
  },
  {
   "property": "C38",
   "status": "partial",
   "theorems": [
    "path_smooth_partial",
    "path_smooth_refuted",
    "path_parse_svg_lenient"
   ],
   "note": "Refuted in general: the code reflects any previous Bezier curve, S after Q and T after C included. Proved where no smooth curve follows a curve of the other sort; path_parse_svg_lenient gives the exact behaviour in all cases."
  },
  {
   "property": "C39",
   "status": "proved",
   "theorems": [
    "path_separators",
    "path_numbers_by_value"
   ],
   "note": "Separators, omitted separators and omitted letters."
  },
  {
   "property": "C40",
   "status": "partial",
   "theorems": [
    "path_text_roundtrip_partial",
    "path_text_stable_partial",
    "path_text_mixed_refuted",
    "path_text_exponent_refuted",
    "path_str_raises",
    "path_text_digits_partial",
    "path_text_drift_partial",
    "path_text_letters"
   ],
   "note": "Proved exact for svg_d (d(transformed=False)) on coordinates with at most nine decimals whose differences have at most 12 digits, relative, absolute or as flagged, and smooth forms. For other coordinates and curves printed in full: right to 12 significant digits if absolute, one rounding more per segment if relative. Refuted in general: S printed after a quadratic curve is read as a reflection; exponents ending in 0 lose it; d() and str() always raise TypeError."
  },
  {
   "property": "C41",
   "status": "proved",
   "theorems": [
    "path_close_returns"
   ],
   "note": "All strings."
  },
  {
   "property": "C42",
   "status": "partial",
   "theorems": [
    "path_copy_refuted",
    "path_iadd_kinds",
    "path_iadd_whole"
   ],
   "note": "False as stated: Path(path), copy(path) and path + other drop every segment of path. Proved for path += other. That += shares nothing is part of C98."
  },
  {
   "property": "C43",
   "status": "partial",
   "theorems": [
    "path_is_valid",
    "path_append_joined",
    "path_insert_joined_partial",
    "path_insert_front_joined",
    "path_setitem_joined_partial",
    "path_delitem_joined_partial",
    "path_delitem_first_joined",
    "path_slices_joined",
    "path_validate_joined",
    "path_extend_joined_partial",
    "path_setitem_negative_refuted",
    "path_insert_negative_refuted",
    "path_delitem_negative_refuted",
    "path_insert_close_refuted",
    "path_delitem_move_refuted",
    "path_extend_refuted",
    "path_setitem_text_raises"
   ],
   "note": "Proved for appending, slices and validate_connections without restriction; for single positions under the stated conditions. Refuted for negative positions, closes inserted in the middle, some deleted moves, and extensions that do not begin with a move."
  },
  {
   "property": "C44",
   "status": "proved",
   "theorems": [
    "subpaths_partition",
    "subpaths_consecutive"
   ],
   "note": "All paths."
  },
  {
   "property": "C45",
   "status": "partial",
   "theorems": [
    "subpath_reads",
    "subpath_bounds_refuted",
    "subpath_write_partial",
    "subpath_iadd_refuted",
    "subpath_delete_partial",
    "path_index_errors"
   ],
   "note": "Reading is proved within bounds; out of bounds the neighbours are read. Writing is proved for drawing segments."
  },
  {
   "property": "C46",
   "status": "partial",
   "theorems": [
    "path_reverse_partial",
    "path_reverse_points_partial",
    "path_reverse_twice_partial",
    "subpath_reverse_partial",
    "segment_flip_points",
    "arc_reverse_data",
    "path_reverse_no_move_refuted",
    "path_reverse_after_close_refuted"
   ],
   "note": "Proved for paths made of complete subpaths, as segments and as points, arcs included. Refuted for paths without an initial move or drawing on after a close."
  },
  {
   "property": "C47",
   "status": "partial",
   "theorems": [
    "path_cache_partial",
    "path_reverse_length_partial",
    "path_cache_reverse_refuted",
    "path_cache_subpath_refuted",
    "path_cache_settings_refuted"
   ],
   "note": "After any history of edits that forget the measurement, with all queries at one error and the default depth, length and point give what a fresh path gives. Reversal keeps the total length of paths of complete subpaths. False in full: positions after reverse, length after scaling a Subpath, and a second query with other settings are stale."
  },
  {
   "property": "C48",
   "status": "proved",
   "theorems": [
    "path_point_walks",
    "path_point_ends",
    "path_point_no_length",
    "path_npoint_partial",
    "path_npoint_refuted"
   ],
   "note": "For every t strictly between 0 and 1 the segment reached after the fraction t of the length, at the fraction of it covered then; 0 and 1 give the first and the last point. Segments are measured and evaluated by parameters, instantiated for lines and Bezier curves. The numpy variant npoint is right only if every segment that has a length is asked about."
  },
  {
   "property": "C49",
   "status": "proved",
   "theorems": [
    "segment_transform_point"
   ],
   "note": ""
  },
  {
   "property": "C50",
   "status": "partial",
   "theorems": [
    "approximate_arcs_partial",
    "approximate_arcs_real_partial",
    "approximate_no_arcs",
    "validate_connects",
    "approximate_flat_arc_refuted",
    "approximate_negative_refuted",
    "approximate_first_arc_refuted"
   ],
   "note": "For any conversion giving chained curves from the start to the end of each arc, and with the real conversions for connected paths whose arcs sweep some angle, and positive errors. Refuted for arcs of radius nought and for negative errors, which remove arcs, and for paths that begin with an arc and have a close before the first move: the close goes to the end of the first element, which is another point once the arc is replaced."
  },
  {
   "property": "C51",
   "status": "proved",
   "theorems": [
    "segment_end_points",
    "segment_reverse_point",
    "segment_points",
    "arc_ends"
   ],
   "note": ""
  },
  {
   "property": "C52",
   "status": "proved",
   "theorems": [
    "segment_in_control_box"
   ],
   "note": ""
  },
  {
   "property": "C53",
   "status": "partial",
   "theorems": [
    "bbox_touched",
    "bbox_range",
    "bbox_cubic_partial",
    "bbox_cubic_refuted"
   ],
   "note": "Lines and quadratic curves in full. Cubic curves where the third difference of the controls is not tiny; refuted for a cubic that is a parabola."
  },
  {
   "property": "C54",
   "status": "partial",
   "theorems": [
    "closest_point_partial",
    "closest_degenerate_refuted",
    "closest_on_line",
    "closest_on_line_refuted"
   ],
   "note": "Every segment of positive length; for one of no length the code returns the number 0. With numpy respect_bounds=False has no effect (refuted)."
  },
  {
   "property": "C55",
   "status": "partial",
   "theorems": [
    "line_length_distance",
    "quad_length_exact",
    "quad_length_close",
    "quad_length_refuted",
    "cubic_length_subdivision",
    "cubic_length_ends",
    "cubic_length_integrand",
    "arc_length_circle",
    "arc_length_elliptic",
    "arc_length_subdivision"
   ],
   "note": "Full for lines, for the subdivision of cubic curves and for quadratic curves whose second difference is 0 or at least 1e-10 (others within 1e-10; refuted as exact). scipy's integrator is not modelled, the function handed to it is proved to be the speed. Arcs: circles exactly, others by subdivision, or by scipy's incomplete elliptic integral, which is an assumption there."
  },
  {
   "property": "C56",
   "status": "partial",
   "theorems": [
    "svg_arc_partial",
    "svg_arc_unique",
    "svg_arc_negative_refuted",
    "svg_arc_zero_refuted"
   ],
   "note": "Positive radii in full, with minimality of the enlarged radii and uniqueness of the arc. A single negative radius gives an arc that does not reach its end; a zero radius gives a point that jumps instead of a line."
  },
  {
   "property": "C57",
   "status": "partial",
   "theorems": [
    "arc_curves_chain",
    "arc_curves_default",
    "arc_cubics_touch",
    "arc_quads_meet",
    "arc_quads_touch_refuted",
    "svg_arc_zero_refuted"
   ],
   "note": "Any number of pieces, and the default number for a sweep other than zero. No pieces at all for an arc with distinct ends and a zero radius."
  },
  {
   "property": "C58",
   "status": "partial",
   "theorems": [
    "arc_bbox_tight",
    "arc_bbox_zero_refuted"
   ],
   "note": "Proper arcs with any sweep but zero; the box is tight. Refuted for a degenerate arc."
  },
  {
   "property": "C59",
   "status": "partial",
   "theorems": [
    "rect_closed_partial",
    "rect_corners_partial",
    "rect_rounded_partial",
    "rect_outline_refuted",
    "rect_none_refuted",
    "rect_radii_refuted",
    "ellipse_closed_partial",
    "ellipse_outline_refuted",
    "circle_outline_refuted",
    "ellipse_transformed_refuted",
    "line_outline_partial",
    "line_plain_refuted",
    "poly_outline_refuted",
    "line_number"
   ],
   "note": "Only lines have outlines as the code stands; rectangles and ellipses are proved under the assumption that the missing method (is_degenerate) or attribute (rotation) exists. Numbers for all attributes."
  },
  {
   "property": "C60",
   "status": "partial",
   "theorems": [
    "parse_rebuilds_partial",
    "parse_raises",
    "parse_defs_refuted",
    "parse_mask_refuted"
   ],
   "note": "Every source without the elements that raise; those are shown to raise."
  },
  {
   "property": "C61",
   "status": "partial",
   "theorems": [
    "write_back_partial",
    "write_text_refuted",
    "write_name_refuted"
   ],
   "note": "Trees of elements that keep their name, up to namespace and text; text and other names are lost."
  },
  {
   "property": "C62",
   "status": "partial",
   "theorems": [
    "lookup_last",
    "lookup_other",
    "lookup_sound",
    "lookup_complete",
    "lookup_builder_refuted",
    "lookup_url",
    "lookup_hash_refuted",
    "lookup_two_urls_refuted"
   ],
   "note": "After parsing. Nodes made by builders are not found by id; the form #id is refuted, and so is url(#id) followed by another parenthesis."
  },
  {
   "property": "C63",
   "status": "proved",
   "theorems": [
    "values_nearest",
    "values_raise"
   ],
   "note": "After any history of parsing and building; elements below an image or mask made by a builder raise AttributeError."
  },
  {
   "property": "C64",
   "status": "partial",
   "theorems": [
    "siblings_partial",
    "siblings_first",
    "siblings_leaf_refuted",
    "previous_element_refuted",
    "siblings_missing"
   ],
   "note": "Where no earlier sibling has the same shape: list.index compares by list equality; a Mask is no Node and has no siblings."
  },
  {
   "property": "C65",
   "status": "partial",
   "theorems": [
    "fill_partial",
    "fill_bad",
    "fill_number",
    "fill_infinite_refuted",
    "stroke_partial",
    "stroke_diverges",
    "stroke_ends_refuted"
   ],
   "note": "fill for every opacity but an infinite one; stroke only without a stroke-opacity, as it calls itself otherwise."
  },
  {
   "property": "C66",
   "status": "partial",
   "theorems": [
    "builder_keeps_partial",
    "builder_circle_refuted",
    "builder_keyword_refuted",
    "builder_strict"
   ],
   "note": "Positional and keyword arguments for all but circle, whose positional arguments are stored under other names."
  },
  {
   "property": "C67",
   "status": "proved",
   "theorems": [
    "shadow_balanced",
    "shadow_order",
    "shadow_malformed_refuted"
   ],
   "note": "Stored trees are finite by construction; malformed entries are skipped."
  },
  {
   "property": "C68",
   "status": "proved",
   "theorems": [
    "links_agree"
   ],
   "note": "After any history of parsing and building."
  },
  {
   "property": "C69",
   "status": "proved",
   "theorems": [
    "length_convert_keeps_size"
   ],
   "note": ""
  },
  {
   "property": "C70",
   "status": "partial",
   "theorems": [
    "angle_eq_same_direction",
    "angle_eq_close",
    "angle_eq_wrap_refuted"
   ],
   "note": "Refuted for directions on either side of the wrap-around."
  },
  {
   "property": "C71",
   "status": "partial",
   "theorems": [
    "point_pow_partial",
    "point_pow_refuted",
    "point_pow_imaginary_raises"
   ],
   "note": "Proved for points with positive x; refuted for negative x, raises for x = 0."
  },
  {
   "property": "C72",
   "status": "proved",
   "theorems": [
    "matrix_is_identity",
    "matrix_eq_close",
    "matrix_eq_refl_sym"
   ],
   "note": ""
  },
  {
   "property": "C73",
   "status": "proved",
   "theorems": [
    "viewbox_str_roundtrip"
   ],
   "note": ""
  },
  {
   "property": "C74",
   "status": "partial",
   "theorems": [
    "segment_str_reads_partial",
    "segment_str_refuted",
    "segment_str_digits_partial"
   ],
   "note": "Moves, lines and curves not marked smooth: exact for coordinates as in C40, to 12 significant digits for others. Refuted for curves marked smooth, which is the default: the control point is not printed."
  },
  {
   "property": "C75",
   "status": "proved",
   "theorems": [
    "path_direct_close",
    "path_direct_close_idempotent"
   ],
   "note": ""
  },
  {
   "property": "C76",
   "status": "partial",
   "theorems": [
    "arc_d_roundtrip",
    "arc_d_turns_refuted"
   ],
   "note": "On exact numbers; the formatting of numbers is C26. Arcs of more than a turn are refuted."
  },
  {
   "property": "C77",
   "status": "partial",
   "theorems": [
    "arc_control_passes",
    "arc_control_line_refuted",
    "arc_sagitta_passes",
    "arc_bulge_sagitta",
    "arc_radius_solves",
    "arc_radius_default_refuted"
   ],
   "note": "Points on a line, and the default direction for radii up to half the distance, are refuted."
  },
  {
   "property": "C78",
   "status": "partial",
   "theorems": [
    "arc_transform_partial",
    "arc_transform_similar",
    "arc_transform_scale",
    "arc_transform_swap_refuted",
    "arc_transform_shear_refuted"
   ],
   "note": "Similarities always, scalings along the axes of the ellipse, and every matrix that keeps the axes perpendicular and whose diagonal tells its orientation. Refuted for an exchange of the axes and for a shear."
  },
  {
   "property": "C79",
   "status": "partial",
   "theorems": [
    "path_short_partial",
    "path_short_refuted"
   ],
   "note": "Refuted for an absolute vertical line or an arc without any number (passed over) and for horizontal lines (another exception)."
  },
  {
   "property": "C80",
   "status": "proved",
   "theorems": [
    "arc_cubics_close",
    "arc_quads_close",
    "arc_cubics_default_close",
    "arc_quads_default_close"
   ],
   "note": "Cubics within 1/190000 of the radii by default, quadratics within 1/188; quadratic pieces of up to about 69 degrees."
  },
  {
   "property": "C81",
   "status": "partial",
   "theorems": [
    "segment_eq_points",
    "path_eq_points",
    "path_eq_reflexive_symmetric",
    "segment_eq_flags",
    "path_eq_printed_partial",
    "subpath_eq_points",
    "segment_eq_transitive_refuted",
    "subpath_eq_printed_refuted"
   ],
   "note": "Exact characterisation for all segments, paths and subpaths; equality with the printed text where C40 is proved, refuted for subpaths after the first. Not transitive."
  },
  {
   "property": "C82",
   "status": "partial",
   "theorems": [
    "segment_getitem",
    "segment_iter_partial",
    "segment_iter_refuted",
    "segment_nested",
    "segment_nested_refuted",
    "segment_bbox_points",
    "path_as_points_partial"
   ],
   "note": "Iteration where no two neighbouring points are missing (refuted otherwise: Close() yields None); nested loops over one segment are refuted in general."
  },
  {
   "property": "C83",
   "status": "partial",
   "theorems": [
    "path_index_first",
    "path_contains_count",
    "path_pop_last",
    "path_pop_joined_partial",
    "path_remove_first",
    "path_remove_missing",
    "path_clear_empty"
   ],
   "note": "pop(k) keeps the path connected where deleting does (C43)."
  },
  {
   "property": "C84",
   "status": "partial",
   "theorems": [
    "subpath_d_reads_partial",
    "subpaths_d_read_partial",
    "subpath_d_smooth_refuted",
    "subpath_d_letters"
   ],
   "note": "Coordinates as in C40; the smooth argument is not obeyed."
  },
  {
   "property": "C85",
   "status": "partial",
   "theorems": [
    "subpath_bbox_union",
    "subpath_bbox_contains_partial",
    "subpath_bbox_move_refuted"
   ],
   "note": "Smallest box around the segments' boxes, containing all they draw (cubics with tiny third differences excepted); it also contains where a leading move came from, so it is not minimal."
  },
  {
   "property": "C86",
   "status": "partial",
   "theorems": [
    "color_init_channels",
    "color_init_invisible",
    "color_init_opaque_refuted",
    "color_init_positional",
    "color_init_positional3",
    "color_init_five_refuted",
    "color_init_packed",
    "color_init_none",
    "color_init_hsl_grey",
    "color_init_hsl_refuted",
    "color_init_hue_opaque"
   ],
   "note": "Proved for channels, packed forms and positional arguments. Refuted for h, s, l given without a colour, which always make a grey whatever h and s are; channels given alone leave alpha 0; five positional arguments are ignored; setting the hue of a translucent colour makes it opaque."
  },
  {
   "property": "C87",
   "status": "partial",
   "theorems": [
    "transform_lengths_sound",
    "transform_lengths_partial",
    "transform_percent_axes",
    "transform_percent_partial",
    "transform_percent_refuted",
    "transform_mixed_refuted",
    "transform_units_refuted",
    "matrix_lengths_add"
   ],
   "note": "Whenever the text is accepted the matrix is right, percentages in transforms parallel to the axes or with equal width and height; lengths of one family are always accepted. Refuted: a percentage after a rotation is taken of the other side, user units next to cm raise ValueError, Q and ex are read as user units. Relative lengths, font sizes and viewboxes as numbers."
  },
  {
   "property": "C88",
   "status": "partial",
   "theorems": [
    "point_forms",
    "point_forms_in_place",
    "point_forms_equal",
    "point_forms_moves",
    "point_text",
    "point_refuses_partial",
    "point_refuses_refuted",
    "point_equal_raises_refuted",
    "point_matrix_refuted",
    "point_matrix_order_refuted",
    "point_eq_symmetric",
    "point_eq_transitive_refuted",
    "point_hash_refuted"
   ],
   "note": "Every documented form is proved. Refuted: p += (None, 5) raises but has moved p; p == (None, 5) raises; a Matrix passes for a point; equal points may hash differently."
  },
  {
   "property": "C89",
   "status": "partial",
   "theorems": [
    "point_unpacks",
    "point_item_set",
    "point_item_bounds",
    "matrix_items",
    "matrix_item_bounds",
    "matrix_unpacks_refuted"
   ],
   "note": "Points in full. Matrices: positions 0 to 5 are right, but other positions give None instead of IndexError, so that unpacking a matrix never ends."
  },
  {
   "property": "C90",
   "status": "partial",
   "theorems": [
    "children_walk_partial",
    "children_walk_ends",
    "children_walk_refuted",
    "children_ends",
    "element_children",
    "connected",
    "equal_node_shape",
    "equal_node_refuted"
   ],
   "note": "The walk meets every child and ends exactly where no two children have the same shape (children_walk_partial and its converse children_walk_ends); with two leaves it never ends (children_walk_refuted). is_equal_node ignores class and attributes (equal_node_refuted); is_connected is false of the document. A Mask is no Node and has none of these properties."
  },
  {
   "property": "C91",
   "status": "proved",
   "theorems": [
    "property_nearest",
    "property_own",
    "property_href",
    "property_href_refuted",
    "property_geometry_refuted",
    "property_hidden",
    "property_missing",
    "property_viewbox"
   ],
   "note": "The refuted theorems show two consequences against SVG: an own href loses against the xlink:href of an element around it, and geometry is inherited. Builders and parsing as in C62-C64; position and center, the failing viewbox_transform of Pattern and Image are not modelled."
  },
  {
   "property": "C92",
   "status": "partial",
   "theorems": [
    "repr_point",
    "repr_color_partial",
    "repr_color_none_refuted",
    "repr_length",
    "repr_matrix_partial",
    "matrix_eq_entries",
    "repr_matrix_length_refuted",
    "repr_segment_partial",
    "repr_relative_refuted",
    "repr_cubic_control_refuted",
    "repr_subpath_partial",
    "repr_path_refuted",
    "repr_angle_partial",
    "repr_angle_refuted",
    "repr_arc_partial"
   ],
   "note": "Python's expression syntax is given by a small lexer and reader in Repr_Spec. Refuted: Color(None) comes back black; a Length in a matrix comes back as text; the relative and smooth flags are forgotten; a cubic curve with only its second control point loses it; repr of a whole Path always raises TypeError. A tiny negative angle comes back as zero, which == takes to be almost a turn away. An arc prints its sweep with Python's own repr of floats, a parameter of which only is assumed that it writes a decimal that reads as the same float. Missing: sweeps printed with an exponent; arcs inside subpaths."
  },
  {
   "property": "C93",
   "status": "partial",
   "theorems": [
    "move_forms_partial",
    "move_flags",
    "move_forms_refuted",
    "linear_forms"
   ],
   "note": "Refuted: Move(p, relative=True) has no end point. Points are given as Point objects."
  },
  {
   "property": "C94",
   "status": "proved",
   "theorems": [
    "number_pattern",
    "length_pattern",
    "viewbox_pattern",
    "point_pattern",
    "transform_pattern",
    "color_pattern",
    "url_pattern",
    "path_pattern"
   ],
   "note": "number_pattern is against the literals of Text_Spec; the others show that the scanners used in the other models agree with the patterns, character by character, under the backtracking semantics of Regex_Model. Classes such as \\s and \\d and IGNORECASE are ASCII only. REGEX_CSS_FONT is covered by C95; REGEX_CSS_STYLE and REGEX_COORD_PAIR.findall for polylines are not covered."
  },
  {
   "property": "C95",
   "status": "partial",
   "theorems": [
    "font_shorthand_partial",
    "font_decimal_refuted",
    "font_keyword_refuted",
    "font_family_refuted",
    "font_height_refuted",
    "font_spaces_refuted",
    "font_reset_refuted",
    "font_twice_refuted"
   ],
   "note": "Proved for keywords with one white space each, sizes of digits and unit, families, a comma, one white space and a generic family. Refuted outside: 12.5px is read as 5px, keyword sizes are 0, a missing generic family raises IndexError, a unitless line height lands in the families, two spaces lose a keyword, nothing is reset, two declarations raise TypeError; bolder and lighter raise ValueError. Whether parse_font is called at all is not claimed (nothing in /repo calls it)."
  },
  {
   "property": "C96",
   "status": "partial",
   "theorems": [
    "subpath_radd_segment_partial",
    "subpath_radd_text_partial",
    "subpath_radd_text_refuted",
    "subpath_add_refuted",
    "subpath_imul_range",
    "subpath_mul_refuted",
    "segment_add_two",
    "segment_add_joined_refuted",
    "segment_add_text_refuted"
   ],
   "note": "*= is proved for every window with a start that is not negative; segment + subpath for subpaths that begin with a move; text + subpath only where the subpath is the whole path (otherwise the whole backing path is added). Refuted: subpath + other and subpath * matrix drop all segments, segment + segment is not connected, segment + text drops the segment. That Path(subpath) shares its segment objects with the backing path is alias_subpath_shares of C98."
  },
  {
   "property": "C97",
   "status": "proved",
   "theorems": [
    "arc_point_at_angle",
    "arc_point_at_angle_unique",
    "arc_angle_at_point",
    "arc_t_at_point",
    "arc_t_of_point_at_t"
   ],
   "note": "Over the reals. Exactly at a quarter turn, where tan is not defined, the model takes the limit that the huge floating point value of tan leads to (see atan2_tan in Arc_Model)."
  },
  {
   "property": "C98",
   "status": "partial",
   "theorems": [
    "alias_run_refines",
    "alias_run_unshared",
    "alias_frame",
    "alias_subpath_imul",
    "alias_subpath_shares",
    "alias_list_refuted",
    "alias_append_refuted",
    "alias_extend_refuted"
   ],
   "note": "Proved for every program whose segments are made in the statement that uses them, on a heap of segment and point objects; so what the other properties say of paths as lists of values holds of the objects. The last sentence is false: Path(subpath), Path([other[i], ...]), path.append(path[i]) and path.extend(other) pass on the objects. Path data text and sums of paths are among the statements, scaling of arcs is not."
  },
  {
   "property": "C99",
   "status": "partial",
   "theorems": [
    "path_elem_segments_partial",
    "path_elem_bbox_partial",
    "path_elem_empty",
    "path_elem_transform_refuted",
    "path_elem_own_refuted",
    "path_elem_bbox_move_refuted",
    "path_elem_close_refuted",
    "line_elem_bbox_partial",
    "line_elem_bbox_refuted",
    "shape_d_refuted"
   ],
   "note": "Proved for data that begin with a move and whose smooth commands follow curves of their kind, with curves as in C51 and C58; the box is the smallest around what is drawn and the ends of moves. Refuted: the transform attribute is ignored, d is inherited from a group, moves widen the box, data such as z raise ValueError, bbox() of a line without transform and d() of any shape raise."
  },
  {
   "property": "C100",
   "status": "partial",
   "theorems": [
    "float_points_close",
    "float_ends_partial",
    "float_ends_refuted",
    "float_line_in_box_partial",
    "float_in_box_refuted",
    "float_line_overflow_refuted",
    "float_line_box",
    "float_quad_box"
   ],
   "note": "IEEE 754 binary64 by Flocq's BinarySingleNaN; ** and numpy.interp are trusted to be what Float_Model says. Exact ends and staying in the box are proved with numpy for lines; refuted without numpy, for a constant quadratic curve, and when the distance of the ends overflows. The box of cubic curves and arcs is only treated in exact arithmetic (C51, C58)."
  },
  {
   "property": "C101",
   "status": "partial",
   "theorems": [
    "float_apply_close",
    "float_apply_whole",
    "float_compose_partial",
    "float_compose_refuted",
    "float_inverse_partial",
    "float_singular",
    "float_inverse_refuted"
   ],
   "note": "Composition is exact for integers, and so is undoing a transform if the determinant is 1 or -1; with fractions it is not, and a transform followed by its inverse can lead to a point that is not equal up to the tolerance."
  },
  {
   "property": "C102",
   "status": "proved",
   "theorems": [
    "float_eq_large",
    "float_eq_close",
    "float_eq_refuted"
   ],
   "note": "float_eq_refuted shows that different floats can be equal, as the last clause says."
  },
  {
   "property": "C103",
   "status": "partial",
   "theorems": [
    "float_steps_partial",
    "float_steps_whole",
    "float_steps_refuted"
   ],
   "note": "The bound is proved while it does not exceed M. Refuted that the errors stay below the tolerance of ==: a thousand steps of 0.1."
  },
  {
   "property": "C104",
   "status": "proved",
   "theorems": [
    "float_alpha_kept",
    "float_opacity_close"
   ],
   "note": "The first theorem is by computation over the whole domain of 256 values."
  },
  {
   "property": "C105",
   "status": "partial",
   "theorems": [
    "approximate_cubics_close_partial",
    "approximate_quads_close_partial",
    "approximate_default_close_partial",
    "path_data_curves_partial"
   ],
   "note": "For connected paths whose arcs are proper, and which, if they begin with an arc, have no close before the first move; arcs of radius nought are removed, and otherwise such a close moves (C50)."
  },
  {
   "property": "C106",
   "status": "partial",
   "theorems": [
    "float_walk_partial",
    "float_walk_ends",
    "float_walk_refuted"
   ],
   "note": "Within 8(n+1) roundings for n segments, but refuted for positions that close to 1: when the fractions add up to less than the position, the beginning of the last segment is returned."
  },
  {
   "property": "C107",
   "status": "partial",
   "theorems": [
    "float_angle_units",
    "float_positive_degrees_partial",
    "float_positive_degrees_refuted",
    "float_normalized",
    "float_normalized_refuted",
    "float_angle_eq_partial",
    "float_whole_turns_refuted",
    "float_orthogonal_partial",
    "float_orthogonal_refuted"
   ],
   "note": "Refuted: as_positive_degrees never ends below -2^57 radians (proved to end and be right down to -2^50; in between it is not shown what it gives); normalized can give a full turn, and then give something else the second time; nine whole turns do not equal zero degrees; 810 degrees are not orthogonal."
  },
  {
   "property": "C108",
   "status": "partial",
   "theorems": [
    "float_hsl_read",
    "float_hsl_roundtrip_partial",
    "float_hsl_roundtrip_refuted",
    "float_grey_roundtrip",
    "float_over",
    "float_percent_partial",
    "float_percent_refuted",
    "float_hsl_text",
    "float_hsl_text_refuted"
   ],
   "note": "Refuted that setting the values read gives the same colour: channels can lose one (0x010203ff becomes 0x010103ff), though never more; greys come back. Percentages give the nearest byte but for rounding, and halves go either way (10% up, 50% down). Hues outside of -240 to 600 degrees are not brought into range (1000 degrees are black). The hue is set in turns here, since the setter does not take the degrees that are read (C10)."
  },
  {
   "property": "C109",
   "status": "partial",
   "theorems": [
    "viewbox_attribute",
    "viewbox_incomplete",
    "viewbox_forms",
    "viewbox_attributes_fit",
    "viewbox_five_refuted",
    "viewbox_noise_refuted"
   ],
   "note": "The last sentence is false: of five numbers the first four are taken, and numbers are picked out of any text. preserveAspectRatio with one space (C32); to the 12 decimals that the transform is printed with."
  },
  {
   "property": "C110",
   "status": "partial",
   "theorems": [
    "float_viewbox_fits",
    "float_viewbox_stretches",
    "float_viewbox_same",
    "float_viewbox_inside_refuted",
    "float_viewbox_scale_refuted"
   ],
   "note": "The last two sentences are false: 1/5 is rounded up, so a viewBox of width 5 sticks out of a viewport of width 1; 49 times the rounded 1/49 is not 1, so a translation that prints as (0, 0) is returned as well."
  },
  {
   "property": "C111",
   "status": "partial",
   "theorems": [
    "float_reads_nearest",
    "float_str_settles",
    "float_str_short",
    "float_str_same_refuted",
    "float_length_settles",
    "float_viewbox_text_settles",
    "float_point_settles",
    "float_point_settles_refuted"
   ],
   "note": "The last two sentences are false: 1e-13 is written 0, and the point 1.5e-10 is written 1.5E-1, since the zeros of an exponent are stripped. The statement on points is for coordinates that are zero, or of magnitude 1e-4 to 1e12, or written with an exponent not ending in 0 (between 2^-1000 and 2^1000)."
  },
  {
   "property": "C112",
   "status": "partial",
   "theorems": [
    "float_path_settles",
    "float_path_relative",
    "float_path_drift",
    "float_path_returns_refuted"
   ],
   "note": "The last sentence is false: h.1h.1h.1h-.3 does not lead back to 0. Arcs are not covered."
  },
  {
   "property": "C113",
   "status": "partial",
   "theorems": [
    "float_length_value",
    "float_length_add",
    "float_length_order",
    "float_length_order_units",
    "float_length_order_refuted",
    "float_to_unit_settles",
    "float_to_unit_same",
    "float_to_unit_same_refuted",
    "float_length_float"
   ],
   "note": "The last two sentences are false: 29pt < 38.6657px but not 38.6657px > 29pt, and 1370.6mm becomes 1370.599999999999mm."
  },
  {
   "property": "C114",
   "status": "proved",
   "theorems": [
    "float_transform_close",
    "float_transform_whole",
    "float_transform_outcome"
   ],
   "note": "cos, sin and tan are parameters; what is asked of them is good_trig, shown to be satisfiable."
  },
  {
   "property": "C115",
   "status": "partial",
   "theorems": [
    "path_line_call",
    "path_move_call",
    "path_vertical_call",
    "path_horizontal_call",
    "path_quad_call",
    "path_cubic_call",
    "path_smooth_quad_call",
    "path_smooth_cubic_call",
    "path_smooth_void",
    "path_arcs_call",
    "path_arc_call",
    "path_first_point",
    "path_call_relative_refuted"
   ],
   "note": "All but the marking: only vertical and horizontal mark every segment as relative; the others mark the first (refuted)."
  },
  {
   "property": "C116",
   "status": "partial",
   "theorems": [
    "matrix_operator",
    "segment_operator_partial",
    "path_operator_refuted",
    "element_operator_refuted",
    "left_operator_refuted",
    "number_operator_refuted",
    "segment_operator_refuted"
   ],
   "note": "Matrices, and segments but cubic curves with one control point only. Refuted for all paths and elements, and for refusals by TypeError."
  },
  {
   "property": "C117",
   "status": "proved",
   "theorems": [
    "float_distance",
    "float_distance_symmetric",
    "float_distance_zero",
    "float_distance_axis",
    "float_distance_whole",
    "float_length",
    "float_length_grows",
    "float_distance_refuted"
   ],
   "note": "Coordinates up to 2^500; beyond that and for points closer than 2^-534 it is refuted."
  },
  {
   "property": "C118",
   "status": "partial",
   "theorems": [
    "float_along_partial",
    "float_along_ends",
    "along_unique",
    "float_walk_refuted"
   ],
   "note": "For t within (8n+16) roundings of 1 it may be the beginning of the last line."
  },
  {
   "property": "C119",
   "status": "partial",
   "theorems": [
    "float_orientation_whole",
    "float_orientation_partial",
    "float_hull_whole",
    "float_hull_ends",
    "float_hull_partial",
    "float_hull_refuted"
   ],
   "note": "Triangles thinner than the margin are not decided, and may keep convex_hull from ending."
  },
  {
   "property": "C120",
   "status": "partial",
   "theorems": [
    "float_closest_partial",
    "float_closest_refuted",
    "float_closest_ends_partial",
    "float_closest_ends_refuted"
   ],
   "note": "Ends nearer than 2^-400 are left out: below about 2^-538 there is no point at all."
  },
  {
   "property": "C121",
   "status": "partial",
   "theorems": [
    "round_repo_refuted",
    "round_unit_partial",
    "round_angle_partial",
    "round_angle_refuted",
    "round_t_at_point_partial",
    "round_arc_t_partial",
    "round_arc_angle_partial",
    "round_arc_default_refuted",
    "round_length_partial"
   ],
   "note": "Proved for a shape that has the attributes which Ellipse and Circle lack; of those every method raises. How close the length is to the circumference is not proved beyond the bounds by circles."
  },
  {
   "property": "C122",
   "status": "partial",
   "theorems": [
    "image_bbox_partial",
    "image_bbox_refuted",
    "image_data_partial",
    "image_data_refuted",
    "image_load_refuted",
    "image_load_partial",
    "image_load_data_partial"
   ],
   "note": "Proved for an image that has the attributes and methods which the class lacks; as it is, data and load raise, and bbox is a point or raises."
  },
  {
   "property": "C123",
   "status": "partial",
   "theorems": [
    "elem_repr_form",
    "elem_repr_tells_partial",
    "elem_repr_tells_refuted",
    "elem_repr_text_refuted"
   ],
   "note": "Proved for attributes that are text, with keys without = and comma and values without comma; otherwise two elements may print alike. Text, TSpan and an Image made by a call raise."
  },
  {
   "property": "C124",
   "status": "partial",
   "theorems": [
    "document_write_partial",
    "document_write_refuted",
    "document_write_first_refuted",
    "document_write_text_refuted"
   ],
   "note": "What is written holds the first element as xml() builds it, within other text; it never begins as XML does, so that it cannot be read."
  },
  {
   "property": "C125",
   "status": "partial",
   "theorems": [
    "arc_circular",
    "arc_radius_axes",
    "arc_get_ellipse_refuted",
    "arc_get_ellipse_radii_refuted"
   ],
   "note": "is_circular and radius are proved; get_ellipse raises."
  },
  {
   "property": "C126",
   "status": "partial",
   "theorems": [
    "color_distance_order",
    "color_distance_redmean_partial",
    "color_distance_green",
    "color_distance_rank_refuted",
    "color_distance_triangle_refuted"
   ],
   "note": "Holds for colours that differ in blue only; the ranking and the triangle inequality are refuted."
  },
  {
   "property": "C127",
   "status": "proved",
   "theorems": [
    "arc_integral_near",
    "arc_integral_circle"
   ],
   "note": "On the reals; rounding of the 100000 additions is not modelled."
  }
 ]
}
{
"M171": [
"C46_step_done_2d (new)",
"C46_constructor_3d"
],
"M027": [
"C44_passive_vector_3d (new)",
"C44_passive_scalar_2d (new)",
"C44_passive_scalar_3d (new)"
],
"M280": [
"C33_component_names (new)"
],
"M445": [
"C53_eulerian_description"
],
"M448": [
"C53_eulerian_description"
],
"M305": [
"C42_covers_domain"
],
"M306": [
"C42_covers_domain"
],
"M536": [
"C55_arrays_start_at_zero (added)"
],
"M827": [
"C46_kernels_2d (new)",
"C46_kernels_3d (new)"
],
"M859": [
"C43_saved_rod_is_current_midpoints"
]
}
-Q theories Verif
theories/Base.v
theories/Enc_model.v
theories/Enc_spec.v
theories/Enc_proof.v
theories/Enc_props.v
theories/Nd_model.v
theories/Nd_spec.v
theories/Nd_proof.v
theories/Ndv_proof.v
theories/Ndr_proof.v
theories/Ndm_model.v
theories/Ndm_proof.v
theories/Fold.v
theories/Vred_proof.v
theories/Nd_props.v
theories/Ring_model.v
theories/Ring_spec.v
theories/Ring_proof.v
theories/Ring_props.v
theories/Share_spec.v
theories/Party.v
theories/Semi_model.v
theories/Semi_proof.v
theories/Trunc_proof.v
theories/Semi_props.v
theories/Beaver_model.v
theories/Beaver_spec.v
theories/Beaver_proof.v
theories/Beaverc_proof.v
theories/Beaver_props.v
theories/Circ_model.v
theories/Circ_spec.v
theories/Circ_proof.v
theories/Circc_proof.v
theories/Circr_proof.v
theories/Conv_model.v
theories/Conv_proof.v
theories/Conv_spec.v
theories/Circ_props.v
theories/Conv_props.v
theories/Prg_model.v
theories/Prg_spec.v
theories/Prg_proof.v
theories/Prg_props.v
theories/Comm_model.v
theories/Comm_spec.v
theories/Comm_proof.v
theories/Comm_props.v
theories/Perm_model.v
theories/Perm_spec.v
theories/Perm_proof.v
theories/Perm_props.v
theories/Aby_model.v
theories/Aby_spec.v
theories/Aby_proof.v
theories/Abyb_proof.v
theories/Abyc_proof.v
theories/Abyt_proof.v
theories/Aby_props.v
theories/Sort_model.v
theories/Sort_spec.v
theories/Sort_proof.v
theories/Sortn_proof.v
theories/Sortq_proof.v
theories/Sortr_proof.v
theories/Sortc_proof.v
theories/Sort_props.v
theories/Scan_model.v
theories/Scan_proof.v
theories/Scan_props.v
theories/Radix_model.v
theories/Radix_spec.v
theories/Radix_proof.v
theories/Radixs_proof.v
theories/Radixk_proof.v
theories/Radix_props.v
theories/Pv_model.v
theories/Pv_spec.v
theories/Pv_proof.v
theories/Pvg_proof.v
theories/Pvm_proof.v
theories/Pvs_proof.v
theories/Pva_proof.v
theories/Pv_props.v
theories/Group_model.v
theories/Group_spec.v
theories/Group_proof.v
theories/Groups_proof.v
theories/Group_props.v
theories/Exec_model.v
theories/Exec_spec.v
theories/Exec_proof.v
theories/Execs_proof.v
theories/Exect_proof.v
theories/Exec_props.v
theories/Pock_proof.v
theories/Gfmp_model.v
theories/Gfmp_proof.v
theories/Gfmp_spec.v
theories/Gfmp_props.v
theories/Disp_model.v
theories/Disp_spec.v
theories/Disp_proof.v
theories/Dispd_proof.v
theories/Disps_proof.v
theories/Disps_model.v
theories/Disps_spec.v
theories/Disp_props.v
theories/Tile_model.v
theories/Tile_spec.v
theories/Tile_proof.v
theories/Tile_props.v
theories/Ty_model.v
theories/Ty_proof.v
theories/Ty_props.v
theories/Val_model.v
theories/Val_spec.v
theories/Val_proof.v
theories/Val_props.v
theories/Hlo_model.v
theories/Hlo_spec.v
theories/Hlo_proof.v
theories/Hlor_proof.v
theories/Hlo_props.v
theories/Hloc_proof.v
theories/Hloc_props.v
theories/Dyn_model.v
theories/Dyn_spec.v
theories/Dynw_proof.v
theories/Dyn_proof.v
theories/Dynu_proof.v
theories/Dyn_props.v
theories/Mm_model.v
theories/Mm_spec.v
theories/Mm_proof.v
theories/Mmm_proof.v
theories/Mmt_proof.v
theories/Mm_props.v
theories/Sync_model.v
theories/Sync_spec.v
theories/Sync_proof.v
theories/Syncs_proof.v
theories/Sync_props.v
theories/Wak_model.v
theories/Wak_proof.v
theories/Wakn_proof.v
theories/Wak_spec.v
theories/Wake_proof.v
theories/Wak_props.v
theories/Ttp_model.v
theories/Ttp_proof.v
theories/Ttp_spec.v
theories/Ttps_proof.v
theories/Ttp_props.v
theories/Ttpp_model.v
theories/Ttpp_spec.v
theories/Ttpp_proof.v
theories/Ttpc_proof.v
theories/Ttpf_proof.v
theories/Ttpp_props.v
theories/Snn_model.v
theories/Snn_spec.v
theories/Snn_proof.v
theories/Snc_proof.v
theories/Snw_proof.v
theories/Snn_props.v
theories/Fxp_model.v
theories/Fxp_spec.v
theories/Fxpn_proof.v
theories/Fxp_proof.v
theories/Fxps_model.v
theories/Fxps_spec.v
theories/Fxps_proof.v
theories/Fxp_props.v
theories/Idiv_model.v
theories/Idiv_proof.v
theories/Idiv_props.v
theories/Cnv_model.v
theories/Cnv_spec.v
theories/Cnv_proof.v
theories/Cnv_props.v
theories/Abyp_model.v
theories/Abyp_spec.v
theories/Abyp_proof.v
theories/Abyp_props.v
theories/Redn_model.v
theories/Redn_spec.v
theories/Redn_proof.v
theories/Rednw_proof.v
theories/Redn_props.v
theories/Spdz_model.v
theories/Spdz_spec.v
theories/Spdz_proof.v
theories/Spdzc_proof.v
theories/Spdzh_proof.v
theories/Spdz_props.v
theories/Gath_model.v
theories/Gath_spec.v
theories/Gath_proof.v
theories/Gathm_proof.v
theories/Gath_props.v
theories/Sas_model.v
theories/Sas_spec.v
theories/Sas_proof.v
theories/Sasw_proof.v
theories/Sass_proof.v
theories/Sas_props.v
theories/Amax_model.v
theories/Amax_spec.v
theories/Amax_proof.v
theories/Amax_props.v
theories/Oram_model.v
theories/Oram_spec.v
theories/Oram_proof.v
theories/Oramg_proof.v
theories/Oram_props.v
theories/Shuf_model.v
theories/Shuf_spec.v
theories/Shuf_proof.v
theories/Shuf_props.v
theories/Lowmc_model.v
theories/Lowmc_spec.v
theories/Lowmc_proof.v
theories/Lowmc_props.v
theories/Pexp_model.v
theories/Pexp_proof.v
theories/Pexp_props.v
